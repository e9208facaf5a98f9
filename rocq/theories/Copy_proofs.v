(** Proofs about copies of JSON Schema documents (C37). *)
From Coq Require Import ZArith List String Bool Lia.
From Verif Require Import Base Heap Schema Copy Spec_Copy.
Import ListNotations.
Open Scope list_scope.
Open Scope nat_scope.

Definition ext (h h' : list dcell) : Prop := exists t, h' = h ++ t.
Lemma ext_refl h : ext h h. Proof. exists []. now rewrite app_nil_r. Qed.
Lemma ext_trans a b c : ext a b -> ext b c -> ext a c.
Proof. intros (t & ->) (u & ->). exists (t ++ u). now rewrite app_assoc. Qed.
Lemma ext_one h c : ext h (h ++ [c]). Proof. now exists [c]. Qed.
Lemma ext_len h h' : ext h h' -> List.length h <= List.length h'.
Proof. intros (t & ->). rewrite app_length. lia. Qed.
Lemma ext_nth h h' a c : ext h h' -> nth_error h a = Some c -> nth_error h' a = Some c.
Proof. intros (t & ->) H. rewrite nth_error_app1; auto. apply nth_error_Some. congruence. Qed.

Lemma cell_ext {A} (f : dcell -> option A) h h' a x : ext h h' -> cell_as f h a = Some x -> cell_as f h' a = Some x.
Proof.
  intros E H. unfold cell_as, obind in *. destruct (nth_error h a) as [c|] eqn:N; [|discriminate]. now rewrite (ext_nth _ _ _ _ E N).
Qed.
Lemma container_ext {A} (f : dcell -> option (list A)) h h' p x : ext h h' -> container f h p = Some x -> container f h' p = Some x.
Proof.
  intros E H. destruct p as [a|]; auto. simpl in *. destruct (cell_as f h a) eqn:C; [|discriminate]. now rewrite (cell_ext _ _ _ _ _ E C).
Qed.
Lemma all_some_mono {A B} (f g : A -> option B) l : forall r, (forall x y, In x l -> f x = Some y -> g x = Some y) ->
  all_some f l = Some r -> all_some g l = Some r.
Proof.
  induction l as [|x l IH]; intros r H; simpl; auto. unfold obind. destruct (f x) as [y|] eqn:F; [|discriminate].
  rewrite (H x y (or_introl eq_refl) F). destruct (all_some f l) as [ys|] eqn:G; [|discriminate].
  rewrite (IH ys); auto. intros z w I. apply H. now right.
Qed.
Lemma trees_mono {A B} (f g : A -> option B) o o' r : (forall x, o = Some x -> o' = Some x) ->
  (forall x y, f x = Some y -> g x = Some y) -> trees f o = Some r -> trees g o' = Some r.
Proof.
  intros Ho H T. destruct o as [o|]; [|discriminate]. rewrite (Ho _ eq_refl). destruct o as [l|]; auto. simpl in *.
  destruct (all_some f l) as [ys|] eqn:E; [|discriminate]. now rewrite (all_some_mono f g l ys (fun x y _ => H x y) E).
Qed.
Lemma keyed_mono {A B} (f g : A -> option B) : (forall x y, f x = Some y -> g x = Some y) ->
  forall x y, keyed f x = Some y -> keyed g x = Some y.
Proof.
  intros H [k x] y K. unfold keyed in *. simpl in *. destruct (f x) as [z|] eqn:F; [|discriminate]. now rewrite (H _ _ F).
Qed.


Ltac obinds H := repeat match type of H with
  | obind ?o _ = Some _ => let x := fresh "x" in let E := fresh "E" in destruct o as [x|] eqn:E; [|discriminate H]; cbn [obind] in H
  end.

Lemma tree_ext n : forall h h' p s, ext h h' -> tree n h p = Some s -> tree n h' p = Some s.
Proof.
  induction n as [|n IH]; intros h h' p s X H; destruct p as [a|]; auto. cbn [tree] in *.
  obinds H. rewrite <- H. clear H.
  assert (M : forall q y, tree n h q = Some y -> tree n h' q = Some y) by (intros; eauto).
  pose proof (keyed_mono _ _ M) as K.
  repeat match goal with
  | E : cell_as _ h _ = Some _ |- _ => apply (cell_ext _ _ _ _ _ X) in E; rewrite E; clear E; cbn [obind]
  | E : container _ h _ = Some _ |- _ => apply (container_ext _ _ _ _ _ X) in E; rewrite E; clear E; cbn [obind]
  | E : tree n h _ = Some _ |- _ => apply M in E; rewrite E; clear E; cbn [obind]
  | E : trees (tree n h) (container ?f h ?q) = Some _ |- _ =>
      apply (trees_mono _ _ _ (container f h' q) _ (fun x => container_ext f h h' q x X) M) in E; rewrite E; clear E; cbn [obind]
  | E : trees (keyed (tree n h)) (container ?f h ?q) = Some _ |- _ =>
      apply (trees_mono _ _ _ (container f h' q) _ (fun x => container_ext f h h' q x X) K) in E; rewrite E; clear E; cbn [obind]
  end.
  reflexivity.
Qed.

Lemma all_some_in {A B} (f : A -> option B) l : forall r x, all_some f l = Some r -> In x l -> exists y, f x = Some y.
Proof.
  induction l as [|z l IH]; intros r x H []; simpl in H; unfold obind in H; destruct (f z) as [y|] eqn:F; try discriminate.
  - subst. eauto.
  - destruct (all_some f l) as [ys|]; [|discriminate]. eauto.
Qed.

(** The pointers of a readable container. *)
Lemma subs_pointers n h h' p o : ext h h' -> trees (tree n h) (container as_subs h p) = Some o ->
  pointers h' p = pointers h p /\ forall q, In q (pointers h p) -> exists s, tree n h q = Some s.
Proof.
  intros X H. destruct p as [a|]; simpl in *; [|split; [auto|intros q []]].
  unfold cell_as, obind in H. destruct (nth_error h a) as [c|] eqn:C; [|discriminate]. rewrite (ext_nth _ _ _ _ X C).
  destruct c; try discriminate H. simpl in H. split; auto. intros q I.
  destruct (all_some (tree n h) l) eqn:E; [|discriminate]. eapply all_some_in; eauto.
Qed.
Lemma map_pointers n h h' p o : ext h h' -> trees (keyed (tree n h)) (container as_map h p) = Some o ->
  pointers h' p = pointers h p /\ forall q, In q (pointers h p) -> exists s, tree n h q = Some s.
Proof.
  intros X H. destruct p as [a|]; simpl in *; [|split; [auto|intros q []]].
  unfold cell_as, obind in H. destruct (nth_error h a) as [c|] eqn:C; [|discriminate]. rewrite (ext_nth _ _ _ _ X C).
  destruct c; try discriminate H. simpl in H. split; auto. intros q I.
  destruct (all_some (keyed (tree n h)) l) eqn:E; [|discriminate]. apply in_map_iff in I. destruct I as ([k y] & <- & I).
  destruct (all_some_in _ _ _ _ E I) as (z & Z). unfold keyed in Z. simpl in *. destruct (tree n h y); [eauto|discriminate].
Qed.

Lemma subnodes_read n h a s : tree (S n) h (Some a) = Some s ->
  exists N, nth_error h a = Some (DNode N) /\ (forall h', ext h h' -> subnodes h' N = subnodes h N)
    /\ forall q, In q (subnodes h N) -> exists s', tree n h q = Some s'.
Proof.
  intros H. cbn [tree] in H. obinds H. clear H. exists x.
  assert (Nx : nth_error h a = Some (DNode x)).
  { unfold cell_as, obind in E. destruct (nth_error h a) as [c|]; [|discriminate]. destruct c; try discriminate. simpl in E. congruence. }
  split; auto. split.
  - intros h' X. unfold subnodes. f_equal. cbn [flat_map].
    repeat match goal with
    | E : trees (tree n h) (container as_subs h ?q) = Some _ |- _ => rewrite (proj1 (subs_pointers n h h' q _ X E)); clear E
    | E : trees (keyed (tree n h)) (container as_map h ?q) = Some _ |- _ => rewrite (proj1 (map_pointers n h h' q _ X E)); clear E
    end. reflexivity.
  - intros q I. unfold subnodes in I. apply in_app_or in I. destruct I as [I|I].
    + simpl in I. repeat (destruct I as [<-|I]; [eauto|]). destruct I.
    + cbn [flat_map] in I. rewrite app_nil_r in I.
      repeat (apply in_app_or in I; destruct I as [I|I];
        [solve [refine (proj2 (subs_pointers _ _ _ _ _ (ext_refl _) _) _ I); eassumption|refine (proj2 (map_pointers _ _ _ _ _ (ext_refl _) _) _ I); eassumption]|]).
      solve [refine (proj2 (subs_pointers _ _ _ _ _ (ext_refl _) _) _ I); eassumption|refine (proj2 (map_pointers _ _ _ _ _ (ext_refl _) _) _ I); eassumption].
Qed.

Lemma made_back n : forall h h' p s x, ext h h' -> tree n h p = Some s -> made_of h' p x -> made_of h p x.
Proof.
  induction n as [|n IH]; intros h h' p s x X T M; destruct p as [a|]; try discriminate; try (inversion M; fail).
  destruct (subnodes_read _ _ _ _ T) as (N & Nx & Sn & Sr). pose proof (ext_nth _ _ _ _ X Nx) as Nx'.
  inversion M as [|a' N' y G I|a' N' q y G I My]; subst; [constructor| |].
  - rewrite Nx' in G. injection G as <-. eapply mo_part; eauto.
  - rewrite Nx' in G. injection G as <-. rewrite (Sn _ X) in I. destruct (Sr _ I) as (s' & Ts).
    eapply mo_sub; eauto.
Qed.

(** A pointer to a new or an empty container. *)
Definition fresh_part (L : nat) (h : list dcell) (x : addr) : Prop :=
  L <= x \/ exists c, nth_error h x = Some c /\ empty_container c.
Lemma fresh_ext L L' h h' x : L' <= L -> ext h h' -> fresh_part L h x -> fresh_part L' h' x.
Proof. intros Q X [H|(c & H & K)]; [left; lia|right; exists c; split; auto; eapply ext_nth; eauto]. Qed.

Definition good (n L : nat) (h : list dcell) (p : option addr) (s : schema) : Prop :=
  tree n h p = Some s /\ forall x, made_of h p x -> fresh_part L h x.
Lemma good_ext n L L' h h' p s : L' <= L -> ext h h' -> good n L h p s -> good n L' h' p s.
Proof.
  intros Q X [T F]. split; [eapply tree_ext; eauto|]. intros x M. eapply fresh_ext; eauto. apply F. eapply made_back; eauto.
Qed.

(** What the copy of a field has to satisfy in the final heap. *)
Definition part_ok (L : nat) (h : list dcell) (p : option addr) : Prop := forall x, p = Some x -> fresh_part L h x.
Lemma part_ext L L' h h' p : L' <= L -> ext h h' -> part_ok L h p -> part_ok L' h' p.
Proof. intros Q X H x E. eapply fresh_ext; eauto. Qed.

Lemma dbind_ok {A B} (m : D A) (f : A -> D B) h x h' : m h = Ok (x, h') -> dbind m f h = f x h'.
Proof. intros H. unfold dbind. now rewrite H. Qed.

Lemma dread_as {A} (f : dcell -> option A) h a x : cell_as f h a = Some x -> dread f a h = Ok (x, h).
Proof. unfold cell_as, obind, dread. destruct (nth_error h a); [|discriminate]. now intros ->. Qed.

Lemma alloc_cell {A} (f : dcell -> option A) c h x : f c = Some x -> cell_as f (h ++ [c]) (List.length h) = Some x.
Proof. intros H. unfold cell_as. rewrite nth_error_app2, Nat.sub_diag; auto. Qed.

Lemma copy_flat_ok {A} (f : dcell -> option (list A)) mk h p o :
  (forall l, f (mk l) = Some l) -> (forall c, f c = Some [] -> empty_container c) -> container f h p = Some o ->
  exists p' h', copy_flat f mk p h = Ok (p', h') /\ ext h h' /\ container f h' p' = Some o /\ part_ok (List.length h) h' p'.
Proof.
  intros Hm He C. destruct p as [a|]; simpl in C.
  - destruct (cell_as f h a) as [l|] eqn:E; [|discriminate]. injection C as <-. unfold copy_flat.
    rewrite (dbind_ok _ _ _ _ _ (dread_as _ _ _ _ E)). destruct l as [|y l].
    + exists (Some a), h. split; auto. split; [apply ext_refl|]. split; [simpl; now rewrite E|].
      intros x Q. injection Q as <-. right. unfold cell_as, obind in E. destruct (nth_error h a) as [c|]; [|discriminate]. eauto.
    + exists (Some (List.length h)), (h ++ [mk (y :: l)]). split; auto. split; [apply ext_one|].
      split; [simpl; now rewrite (alloc_cell _ _ _ _ (Hm _))|]. intros x Q. injection Q as <-. left. lia.
  - injection C as <-. exists None, h. split; auto. split; [apply ext_refl|]. split; auto. discriminate.
Qed.

Lemma copy_data_ok h p o : container as_data h p = Some o ->
  exists p' h', copy_data p h = Ok (p', h') /\ ext h h' /\ container as_data h' p' = Some o /\ part_ok (List.length h) h' p'.
Proof.
  intros C. destruct p as [a|]; simpl in C.
  - destruct (cell_as as_data h a) as [l|] eqn:E; [|discriminate]. injection C as <-. unfold copy_data.
    rewrite (dbind_ok _ _ _ _ _ (dread_as _ _ _ _ E)).
    exists (Some (List.length h)), (h ++ [DData l]). split; auto. split; [apply ext_one|].
    split; [simpl; now rewrite (alloc_cell as_data (DData l) _ l eq_refl)|]. intros x Q. injection Q as <-. left. lia.
  - injection C as <-. exists None, h. split; auto. split; [apply ext_refl|]. split; auto. discriminate.
Qed.

Section Step.
Variable n : nat.
Hypothesis IH : forall h p s, tree n h p = Some s ->
  exists p' h', deep n p h = Ok (p', h') /\ ext h h' /\ good n (List.length h) h' p' s.

Lemma list_ok {A B C} (f : A -> D B) (src : list dcell -> A -> option C) (dst : nat -> list dcell -> B -> C -> Prop) :
  (forall h h' x y, ext h h' -> src h x = Some y -> src h' x = Some y) ->
  (forall L L' h h' x y, L' <= L -> ext h h' -> dst L h x y -> dst L' h' x y) ->
  (forall h x y, src h x = Some y -> exists x' h', f x h = Ok (x', h') /\ ext h h' /\ dst (List.length h) h' x' y) ->
  forall l h r, all_some (src h) l = Some r ->
  exists l' h', dlist f l h = Ok (l', h') /\ ext h h' /\ Forall2 (dst (List.length h) h') l' r.
Proof.
  intros Es Ed St. induction l as [|x l IHl]; intros h r H.
  - injection H as <-. exists [], h. split; auto. split; [apply ext_refl|constructor].
  - simpl in H. unfold obind in H. destruct (src h x) as [y|] eqn:S0; [|discriminate].
    destruct (all_some (src h) l) as [ys|] eqn:S1; [|discriminate]. injection H as <-.
    destruct (St _ _ _ S0) as (x' & h1 & R1 & X1 & D1).
    assert (S2 : all_some (src h1) l = Some ys) by (eapply all_some_mono; [|exact S1]; intros; eauto).
    destruct (IHl h1 ys S2) as (l' & h2 & R2 & X2 & D2).
    exists (x' :: l'), h2. split; [simpl; rewrite (dbind_ok _ _ _ _ _ R1), (dbind_ok _ _ _ _ _ R2); reflexivity|].
    split; [eapply ext_trans; eauto|]. constructor; [eapply Ed; [|exact X2|exact D1]; lia|].
    clear - D2 X1 Ed. apply ext_len in X1. induction D2; constructor; auto. eapply Ed; [exact X1|apply ext_refl|assumption].
Qed.

Lemma all_some_forall {A B} (f : A -> option B) l r : Forall2 (fun x y => f x = Some y) l r -> all_some f l = Some r.
Proof. induction 1 as [|x y l r H _ IHl]; simpl; auto. unfold obind. now rewrite H, IHl. Qed.

Definition subs_ok (L : nat) (h : list dcell) (p : option addr) : Prop :=
  forall q, In q (pointers h p) -> exists s, good n L h q s.
Lemma subs_ok_ext L L' h h' p : L' <= L -> ext h h' -> pointers h' p = pointers h p ->
  subs_ok L h p -> subs_ok L' h' p.
Proof. intros Q X E H q I. rewrite E in I. destruct (H q I) as (s & G). exists s. eapply good_ext; eauto. Qed.

Lemma Forall2_goods L h l r : Forall2 (good n L h) l r -> all_some (tree n h) l = Some r
  /\ forall q, In q l -> exists s, good n L h q s.
Proof.
  intros F. split.
  - apply all_some_forall. induction F as [|x y l r [H _]]; constructor; auto.
  - induction F as [|x y l r H]; intros q []; subst; eauto.
Qed.

Lemma copy_subs_ok h p o : trees (tree n h) (container as_subs h p) = Some o ->
  exists p' h', copy_subs (deep n) p h = Ok (p', h') /\ ext h h'
    /\ trees (tree n h') (container as_subs h' p') = Some o /\ part_ok (List.length h) h' p' /\ subs_ok (List.length h) h' p'.
Proof.
  intros C. destruct p as [a|].
  - simpl in C. destruct (cell_as as_subs h a) as [l|] eqn:E; [|discriminate]. simpl in C.
    destruct (all_some (tree n h) l) as [r|] eqn:S0; [|discriminate]. injection C as <-. unfold copy_subs.
    rewrite (dbind_ok _ _ _ _ _ (dread_as _ _ _ _ E)).
    assert (Ca : exists c, nth_error h a = Some c /\ as_subs c = Some l).
    { unfold cell_as, obind in E. destruct (nth_error h a) as [c|]; [|discriminate]. eauto. }
    destruct Ca as (c & Ca & Cl). destruct l as [|y l].
    + injection S0 as <-. exists (Some a), h. split; auto. split; [apply ext_refl|]. split; [simpl; now rewrite E|].
      destruct c; try discriminate. injection Cl as ->. split.
      * intros x Q. injection Q as <-. right. eexists. split; [exact Ca|]. unfold empty_container. tauto.
      * intros q I. simpl in I. rewrite Ca in I. destruct I.
    + destruct (list_ok (deep n) (fun h => tree n h) (fun L h => good n L h)
        (fun h h' x y => tree_ext n h h' x y) (fun L L' h h' x y => good_ext n L L' h h' x y) IH _ _ _ S0) as (l' & h1 & R1 & X1 & F1).
      exists (Some (List.length h1)), (h1 ++ [DSubs l']). rewrite (dbind_ok _ _ _ _ _ R1). split; auto.
      split; [eapply ext_trans; [exact X1|apply ext_one]|].
      assert (F2 : Forall2 (good n (List.length h) (h1 ++ [DSubs l'])) l' r).
      { pose proof (ext_one h1 (DSubs l')) as X2. revert X2. generalize (h1 ++ [DSubs l']). intros h2 X2. clear - F1 X2.
        induction F1; constructor; auto. eapply good_ext; eauto. }
      destruct (Forall2_goods _ _ _ _ F2) as [A1 A2].
      split; [simpl; rewrite (alloc_cell as_subs (DSubs l') h1 l' eq_refl); simpl; now rewrite A1|]. split.
      * intros x Q. injection Q as <-. left. now apply ext_len.
      * intros q I. simpl in I. rewrite nth_error_app2, Nat.sub_diag in I; auto.
  - injection C as <-. exists None, h. split; auto. split; [apply ext_refl|]. split; auto. split; [discriminate|intros q []].
Qed.

Definition kgood (L : nat) (h : list dcell) (kp : string * option addr) (ks : string * schema) : Prop :=
  fst kp = fst ks /\ good n L h (snd kp) (snd ks).
Lemma map_goods L h l r : Forall2 (kgood L h) l r -> all_some (keyed (tree n h)) l = Some r
  /\ forall q, In q (map snd l) -> exists s, good n L h q s.
Proof.
  intros F. split.
  - apply all_some_forall. induction F as [|[k x] [k' y] l r [H G]]; constructor; auto. simpl in *. subst k'.
    unfold keyed. simpl. destruct G as [-> _]. reflexivity.
  - induction F as [|[k x] [k' y] l r [H G]]; intros q []; subst; eauto.
Qed.

Lemma map_entries h l r : all_some (keyed (tree n h)) l = Some r ->
  exists l' h', dlist (fun kp => dbind (deep n (snd kp)) (fun q => dret (fst kp, q))) l h = Ok (l', h') /\ ext h h'
    /\ Forall2 (kgood (List.length h) h') l' r.
Proof.
  apply (list_ok (fun kp : string * option addr => dbind (deep n (snd kp)) (fun q => dret (fst kp, q)))
    (fun h => keyed (tree n h)) (fun L h => kgood L h)).
  - intros h0 h' x y X. apply keyed_mono. intros. eapply tree_ext; eauto.
  - intros L L' h0 h' x y Q X [A B]. split; auto. eapply good_ext; eauto.
  - intros h0 [k x] y K. unfold keyed in K. simpl in K. destruct (tree n h0 x) as [s|] eqn:T; [|discriminate]. injection K as <-.
    destruct (IH _ _ _ T) as (p' & h' & R & X & G). exists (k, p'), h'. simpl. rewrite (dbind_ok _ _ _ _ _ R). split; auto. split; auto.
    split; auto.
Qed.

Lemma new_map h1 h l' r : ext h h1 -> Forall2 (kgood (List.length h) h1) l' r ->
  trees (keyed (tree n (h1 ++ [DMap l']))) (container as_map (h1 ++ [DMap l']) (Some (List.length h1))) = Some (Some r)
  /\ part_ok (List.length h) (h1 ++ [DMap l']) (Some (List.length h1))
  /\ subs_ok (List.length h) (h1 ++ [DMap l']) (Some (List.length h1)).
Proof.
  intros X1 F1.
  assert (F2 : Forall2 (kgood (List.length h) (h1 ++ [DMap l'])) l' r).
  { remember (h1 ++ [DMap l']) as h2 eqn:E2. assert (X2 : ext h1 h2) by (subst; apply ext_one). clear E2.
    induction F1 as [|x y l r [A B]]; constructor; auto. split; auto. eapply good_ext; [apply le_n|exact X2|exact B]. }
  destruct (map_goods _ _ _ _ F2) as [A1 A2].
  split; [simpl; rewrite (alloc_cell as_map (DMap l') h1 l' eq_refl); simpl; now rewrite A1|]. split.
  - intros x Q. injection Q as <-. left. now apply ext_len.
  - intros q I. simpl in I. rewrite nth_error_app2, Nat.sub_diag in I; auto.
Qed.

Lemma copy_map_ok h p o : trees (keyed (tree n h)) (container as_map h p) = Some o ->
  exists p' h', copy_map (deep n) p h = Ok (p', h') /\ ext h h'
    /\ trees (keyed (tree n h')) (container as_map h' p') = Some o /\ part_ok (List.length h) h' p' /\ subs_ok (List.length h) h' p'.
Proof.
  intros C. destruct p as [a|].
  - simpl in C. destruct (cell_as as_map h a) as [l|] eqn:E; [|discriminate]. simpl in C.
    destruct (all_some (keyed (tree n h)) l) as [r|] eqn:S0; [|discriminate]. injection C as <-. unfold copy_map.
    rewrite (dbind_ok _ _ _ _ _ (dread_as _ _ _ _ E)).
    assert (Ca : exists c, nth_error h a = Some c /\ as_map c = Some l).
    { unfold cell_as, obind in E. destruct (nth_error h a) as [c|]; [|discriminate]. eauto. }
    destruct Ca as (c & Ca & Cl). destruct l as [|y l].
    + injection S0 as <-. exists (Some a), h. split; auto. split; [apply ext_refl|]. split; [simpl; now rewrite E|].
      destruct c; try discriminate. injection Cl as ->. split.
      * intros x Q. injection Q as <-. right. eexists. split; [exact Ca|]. unfold empty_container. tauto.
      * intros q I. simpl in I. rewrite Ca in I. destruct I.
    + destruct (map_entries _ _ _ S0) as (l' & h1 & R1 & X1 & F1).
      exists (Some (List.length h1)), (h1 ++ [DMap l']). rewrite (dbind_ok _ _ _ _ _ R1). split; auto.
      split; [eapply ext_trans; [exact X1|apply ext_one]|]. now apply new_map.
  - injection C as <-. exists None, h. split; auto. split; [apply ext_refl|]. split; auto. split; [discriminate|intros q []].
Qed.

Lemma copy_map_any_ok h p o : trees (keyed (tree n h)) (container as_map h p) = Some o ->
  exists p' h', copy_map_any (deep n) p h = Ok (p', h') /\ ext h h'
    /\ trees (keyed (tree n h')) (container as_map h' p') = Some o /\ part_ok (List.length h) h' p' /\ subs_ok (List.length h) h' p'.
Proof.
  intros C. destruct p as [a|].
  - simpl in C. destruct (cell_as as_map h a) as [l|] eqn:E; [|discriminate]. simpl in C.
    destruct (all_some (keyed (tree n h)) l) as [r|] eqn:S0; [|discriminate]. injection C as <-. unfold copy_map_any.
    rewrite (dbind_ok _ _ _ _ _ (dread_as _ _ _ _ E)).
    destruct (map_entries _ _ _ S0) as (l' & h1 & R1 & X1 & F1).
    exists (Some (List.length h1)), (h1 ++ [DMap l']). rewrite (dbind_ok _ _ _ _ _ R1). split; auto.
    split; [eapply ext_trans; [exact X1|apply ext_one]|]. now apply new_map.
  - injection C as <-. exists None, h. split; auto. split; [apply ext_refl|]. split; auto. split; [discriminate|intros q []].
Qed.
End Step.

(** What holds of the copy of each kind of field. *)
Definition R_flat {A} (f : dcell -> option (list A)) o (L : nat) h p := container f h p = Some o /\ part_ok L h p.
Definition R_subs n o (L : nat) h p := trees (tree n h) (container as_subs h p) = Some o /\ part_ok L h p /\ subs_ok n L h p.
Definition R_map n o (L : nat) h p := trees (keyed (tree n h)) (container as_map h p) = Some o /\ part_ok L h p /\ subs_ok n L h p.

Lemma R_flat_ext {A} (f : dcell -> option (list A)) o L L' h h' p : L' <= L -> ext h h' -> R_flat f o L h p -> R_flat f o L' h' p.
Proof. intros Q X [H1 H2]. split; [eapply container_ext; eauto|eapply part_ext; eauto]. Qed.
Lemma trees_subs_ext n h h' p o : ext h h' -> trees (tree n h) (container as_subs h p) = Some o ->
  trees (tree n h') (container as_subs h' p) = Some o.
Proof. intros X. apply trees_mono; [intros x; now apply container_ext|intros x y; now apply tree_ext]. Qed.
Lemma trees_map_ext n h h' p o : ext h h' -> trees (keyed (tree n h)) (container as_map h p) = Some o ->
  trees (keyed (tree n h')) (container as_map h' p) = Some o.
Proof. intros X. apply trees_mono; [intros x; now apply container_ext|apply keyed_mono; intros x y; now apply tree_ext]. Qed.
Lemma R_subs_ext n o L L' h h' p : L' <= L -> ext h h' -> R_subs n o L h p -> R_subs n o L' h' p.
Proof.
  intros Q X (H1 & H2 & H3). split; [eapply trees_subs_ext; eauto|]. split; [eapply part_ext; eauto|].
  eapply subs_ok_ext; eauto. apply (subs_pointers _ _ _ _ _ X H1).
Qed.
Lemma R_map_ext n o L L' h h' p : L' <= L -> ext h h' -> R_map n o L h p -> R_map n o L' h' p.
Proof.
  intros Q X (H1 & H2 & H3). split; [eapply trees_map_ext; eauto|]. split; [eapply part_ext; eauto|].
  eapply subs_ok_ext; eauto. apply (map_pointers _ _ _ _ _ X H1).
Qed.

Lemma as_strs_empty c : as_strs c = Some [] -> empty_container c.
Proof. destruct c; try discriminate. intros [= ->]. unfold empty_container. auto. Qed.
Lemma as_vals_empty c : as_vals c = Some [] -> empty_container c.
Proof. destruct c; try discriminate. intros [= ->]. unfold empty_container. auto. Qed.

Theorem deep_ok n : forall h p s, tree n h p = Some s ->
  exists p' h', deep n p h = Ok (p', h') /\ ext h h' /\ good n (List.length h) h' p' s.
Proof.
  induction n as [|n IH]; intros h p s T; destruct p as [a|]; try discriminate T;
    try (injection T as <-; exists None, h; split; [reflexivity|]; split; [apply ext_refl|]; split; [reflexivity|]; intros x M; inversion M; fail).
  cbn [tree] in T. obinds T. injection T as <-.
  cbn [deep]. rewrite (dbind_ok _ _ _ _ _ (dread_as _ _ _ _ E)). unfold deep_node.
  assert (X0 : ext h h) by apply ext_refl.
  destruct (copy_flat_ok as_strs DStrs h (d_req x) _ (fun l => eq_refl) as_strs_empty E0) as (p1 & h1 & Q1 & Y1 & G1).
  rewrite (dbind_ok _ _ _ _ _ Q1). clear Q1 E0. pose proof (ext_trans _ _ _ X0 Y1) as X1.
  destruct (copy_flat_ok as_vals DVals h1 (d_ex x) _ (fun l => eq_refl) as_vals_empty (container_ext _ _ _ _ _ X1 E1)) as (p2 & h2 & Q2 & Y2 & G2).
  rewrite (dbind_ok _ _ _ _ _ Q2). clear Q2 E1. pose proof (ext_trans _ _ _ X1 Y2) as X2.
  destruct (copy_flat_ok as_vals DVals h2 (d_enum x) _ (fun l => eq_refl) as_vals_empty (container_ext _ _ _ _ _ X2 E2)) as (p3 & h3 & Q3 & Y3 & G3).
  rewrite (dbind_ok _ _ _ _ _ Q3). clear Q3 E2. pose proof (ext_trans _ _ _ X2 Y3) as X3.
  destruct (copy_subs_ok n IH h3 _ _ (trees_subs_ext _ _ _ _ _ X3 E3)) as (p4 & h4 & Q4 & Y4 & G4).
  rewrite (dbind_ok _ _ _ _ _ Q4). clear Q4 E3. pose proof (ext_trans _ _ _ X3 Y4) as X4.
  destruct (copy_subs_ok n IH h4 _ _ (trees_subs_ext _ _ _ _ _ X4 E4)) as (p5 & h5 & Q5 & Y5 & G5).
  rewrite (dbind_ok _ _ _ _ _ Q5). clear Q5 E4. pose proof (ext_trans _ _ _ X4 Y5) as X5.
  destruct (copy_subs_ok n IH h5 _ _ (trees_subs_ext _ _ _ _ _ X5 E5)) as (p6 & h6 & Q6 & Y6 & G6).
  rewrite (dbind_ok _ _ _ _ _ Q6). clear Q6 E5. pose proof (ext_trans _ _ _ X5 Y6) as X6.
  destruct (IH h6 _ _ (tree_ext _ _ _ _ _ X6 E6)) as (p7 & h7 & Q7 & Y7 & G7).
  rewrite (dbind_ok _ _ _ _ _ Q7). clear Q7 E6. pose proof (ext_trans _ _ _ X6 Y7) as X7.
  destruct (IH h7 _ _ (tree_ext _ _ _ _ _ X7 E7)) as (p8 & h8 & Q8 & Y8 & G8).
  rewrite (dbind_ok _ _ _ _ _ Q8). clear Q8 E7. pose proof (ext_trans _ _ _ X7 Y8) as X8.
  destruct (IH h8 _ _ (tree_ext _ _ _ _ _ X8 E8)) as (p9 & h9 & Q9 & Y9 & G9).
  rewrite (dbind_ok _ _ _ _ _ Q9). clear Q9 E8. pose proof (ext_trans _ _ _ X8 Y9) as X9.
  destruct (IH h9 _ _ (tree_ext _ _ _ _ _ X9 E9)) as (p10 & h10 & Q10 & Y10 & G10).
  rewrite (dbind_ok _ _ _ _ _ Q10). clear Q10 E9. pose proof (ext_trans _ _ _ X9 Y10) as X10.
  destruct (IH h10 _ _ (tree_ext _ _ _ _ _ X10 E10)) as (p11 & h11 & Q11 & Y11 & G11).
  rewrite (dbind_ok _ _ _ _ _ Q11). clear Q11 E10. pose proof (ext_trans _ _ _ X10 Y11) as X11.
  destruct (IH h11 _ _ (tree_ext _ _ _ _ _ X11 E11)) as (p12 & h12 & Q12 & Y12 & G12).
  rewrite (dbind_ok _ _ _ _ _ Q12). clear Q12 E11. pose proof (ext_trans _ _ _ X11 Y12) as X12.
  destruct (copy_map_ok n IH h12 _ _ (trees_map_ext _ _ _ _ _ X12 E12)) as (p13 & h13 & Q13 & Y13 & G13).
  rewrite (dbind_ok _ _ _ _ _ Q13). clear Q13 E12. pose proof (ext_trans _ _ _ X12 Y13) as X13.
  destruct (copy_map_ok n IH h13 _ _ (trees_map_ext _ _ _ _ _ X13 E13)) as (p14 & h14 & Q14 & Y14 & G14).
  rewrite (dbind_ok _ _ _ _ _ Q14). clear Q14 E13. pose proof (ext_trans _ _ _ X13 Y14) as X14.
  destruct (copy_map_ok n IH h14 _ _ (trees_map_ext _ _ _ _ _ X14 E14)) as (p15 & h15 & Q15 & Y15 & G15).
  rewrite (dbind_ok _ _ _ _ _ Q15). clear Q15 E14. pose proof (ext_trans _ _ _ X14 Y15) as X15.
  destruct (copy_data_ok h15 _ _ (container_ext _ _ _ _ _ X15 E15)) as (p16 & h16 & Q16 & Y16 & G16).
  rewrite (dbind_ok _ _ _ _ _ Q16). clear Q16 E15. pose proof (ext_trans _ _ _ X15 Y16) as X16.
  destruct (copy_map_any_ok n IH h16 _ _ (trees_map_ext _ _ _ _ _ X16 E16)) as (p17 & h17 & Q17 & Y17 & G17).
  rewrite (dbind_ok _ _ _ _ _ Q17). clear Q17 E16. pose proof (ext_trans _ _ _ X16 Y17) as X17.
  destruct (copy_data_ok h17 _ _ (container_ext _ _ _ _ _ X17 E17)) as (p18 & h18 & Q18 & Y18 & G18).
  rewrite (dbind_ok _ _ _ _ _ Q18). clear Q18 E17. pose proof (ext_trans _ _ _ X17 Y18) as X18.
  set (N := DN (d_kw x) p1 p2 p3 p4 p5 p6 p7 p8 p9 p10 p11 p12 p13 p14 p15 p16 p17 p18).
  set (h' := h18 ++ [DNode N]). assert (Y : ext h18 h') by (eexists; reflexivity).
  exists (Some (List.length h18)), h'. split; [reflexivity|]. split; [eapply ext_trans; eauto|].
  assert (NN : nth_error h' (List.length h18) = Some (DNode N)) by (unfold h'; rewrite nth_error_app2, Nat.sub_diag; auto).
  pose proof (ext_len _ _ X18) as Lh.
  clearbody h'.
  (* everything in the final heap *)
  assert (Z17 := ext_trans _ _ _ Y18 Y). assert (Z16 := ext_trans _ _ _ Y17 Z17). assert (Z15 := ext_trans _ _ _ Y16 Z16).
  assert (Z14 := ext_trans _ _ _ Y15 Z15). assert (Z13 := ext_trans _ _ _ Y14 Z14). assert (Z12 := ext_trans _ _ _ Y13 Z13).
  assert (Z11 := ext_trans _ _ _ Y12 Z12). assert (Z10 := ext_trans _ _ _ Y11 Z11). assert (Z9 := ext_trans _ _ _ Y10 Z10).
  assert (Z8 := ext_trans _ _ _ Y9 Z9). assert (Z7 := ext_trans _ _ _ Y8 Z8). assert (Z6 := ext_trans _ _ _ Y7 Z7).
  assert (Z5 := ext_trans _ _ _ Y6 Z6). assert (Z4 := ext_trans _ _ _ Y5 Z5). assert (Z3 := ext_trans _ _ _ Y4 Z4).
  assert (Z2 := ext_trans _ _ _ Y3 Z3). assert (Z1 := ext_trans _ _ _ Y2 Z2).
  apply (R_flat_ext as_strs _ _ _ _ _ _ (ext_len _ _ X0) Z1) in G1. apply (R_flat_ext as_vals _ _ _ _ _ _ (ext_len _ _ X1) Z2) in G2.
  apply (R_flat_ext as_vals _ _ _ _ _ _ (ext_len _ _ X2) Z3) in G3. apply (R_subs_ext _ _ _ _ _ _ _ (ext_len _ _ X3) Z4) in G4.
  apply (R_subs_ext _ _ _ _ _ _ _ (ext_len _ _ X4) Z5) in G5. apply (R_subs_ext _ _ _ _ _ _ _ (ext_len _ _ X5) Z6) in G6.
  apply (good_ext _ _ _ _ _ _ _ (ext_len _ _ X6) Z7) in G7. apply (good_ext _ _ _ _ _ _ _ (ext_len _ _ X7) Z8) in G8.
  apply (good_ext _ _ _ _ _ _ _ (ext_len _ _ X8) Z9) in G9. apply (good_ext _ _ _ _ _ _ _ (ext_len _ _ X9) Z10) in G10.
  apply (good_ext _ _ _ _ _ _ _ (ext_len _ _ X10) Z11) in G11. apply (good_ext _ _ _ _ _ _ _ (ext_len _ _ X11) Z12) in G12.
  apply (R_map_ext _ _ _ _ _ _ _ (ext_len _ _ X12) Z13) in G13. apply (R_map_ext _ _ _ _ _ _ _ (ext_len _ _ X13) Z14) in G14.
  apply (R_map_ext _ _ _ _ _ _ _ (ext_len _ _ X14) Z15) in G15. apply (R_flat_ext as_data _ _ _ _ _ _ (ext_len _ _ X15) Z16) in G16.
  apply (R_map_ext _ _ _ _ _ _ _ (ext_len _ _ X16) Z17) in G17. apply (R_flat_ext as_data _ _ _ _ _ _ (ext_len _ _ X17) Y) in G18.
  clear - NN Lh G1 G2 G3 G4 G5 G6 G7 G8 G9 G10 G11 G12 G13 G14 G15 G16 G17 G18.
  destruct G1 as [A1 B1], G2 as [A2 B2], G3 as [A3 B3], G4 as (A4 & B4 & C4), G5 as (A5 & B5 & C5), G6 as (A6 & B6 & C6),
    G13 as (A13 & B13 & C13), G14 as (A14 & B14 & C14), G15 as (A15 & B15 & C15), G16 as [A16 B16], G17 as (A17 & B17 & C17), G18 as [A18 B18].
  split.
  - cbn [tree]. unfold cell_as at 1. rewrite NN. cbn [obind as_node d_req d_ex d_enum d_any d_all d_one d_not d_if d_then d_else d_items
      d_pnames d_props d_pprops d_defs d_ann d_fdefs d_fdata d_kw N].
    destruct G7 as [T7 _], G8 as [T8 _], G9 as [T9 _], G10 as [T10 _], G11 as [T11 _], G12 as [T12 _].
    rewrite A1; cbn [obind]. rewrite A2; cbn [obind]. rewrite A3; cbn [obind]. rewrite A4; cbn [obind]. rewrite A5; cbn [obind].
    rewrite A6; cbn [obind]. rewrite T7; cbn [obind]. rewrite T8; cbn [obind]. rewrite T9; cbn [obind]. rewrite T10; cbn [obind].
    rewrite T11; cbn [obind]. rewrite T12; cbn [obind]. rewrite A13; cbn [obind]. rewrite A14; cbn [obind]. rewrite A15; cbn [obind].
    rewrite A16; cbn [obind]. rewrite A17; cbn [obind]. rewrite A18; cbn [obind]. reflexivity.
  - intros y M. inversion M as [|a' N' z G I|a' N' q z G I My]; subst.
    + left. assumption.
    + rewrite NN in G. injection G as <-. unfold containers, N in I. simpl in I.
      repeat (destruct I as [I|I]; [revert y I M; match goal with B : part_ok _ _ ?p |- forall y, ?p = _ -> _ => intros y I M; now apply B end|]).
      destruct I.
    + rewrite NN in G. injection G as <-. unfold subnodes in I. apply in_app_or in I. destruct I as [I|I].
      * unfold N in I. simpl in I.
        repeat (destruct I as [I|I]; [subst q; match goal with Gx : good _ _ _ ?p _ |- _ => exact (proj2 Gx y My) end|]).
        destruct I.
      * unfold N in I. cbn [flat_map d_any d_all d_one d_props d_pprops d_defs d_fdefs] in I. rewrite app_nil_r in I.
        assert (Fin : forall p, subs_ok n (List.length h) h' p -> In q (pointers h' p) -> fresh_part (List.length h) h' y).
        { intros p Sp Ip. destruct (Sp q Ip) as (s & Gs). exact (proj2 Gs y My). }
        repeat (apply in_app_or in I; destruct I as [I|I]; [eapply Fin; [|exact I]; assumption|]).
        eapply Fin; [|exact I]; assumption.
Qed.

(** * Fuel *)
Definition dle {A} (m m' : D A) : Prop := forall h r, m h = r -> r <> OutOfFuel -> m' h = r.
Lemma dle_refl {A} (m : D A) : dle m m. Proof. intros h r H _. exact H. Qed.
Lemma dle_bind {A B} (m m' : D A) (f f' : A -> D B) : dle m m' -> (forall x, dle (f x) (f' x)) -> dle (dbind m f) (dbind m' f').
Proof.
  intros Hm Hf h r H N. unfold dbind in *. destruct (m h) as [[x h']| | |] eqn:E; try (subst; congruence);
    rewrite (Hm h _ E) by discriminate; auto. eapply Hf; eauto.
Qed.
Section Mono.
Variables r1 r2 : option addr -> D (option addr).
Hypothesis Hr : forall p, dle (r1 p) (r2 p).
Lemma dlist_mono {A B} (f g : A -> D B) l : (forall x, dle (f x) (g x)) -> dle (dlist f l) (dlist g l).
Proof.
  intros H. induction l; simpl; [apply dle_refl|]. apply dle_bind; auto. intros x. apply dle_bind; auto. intros y. apply dle_refl.
Qed.
Lemma entry_mono l : dle (dlist (fun kp : string * option addr => dbind (r1 (snd kp)) (fun q => dret (fst kp, q))) l)
                         (dlist (fun kp => dbind (r2 (snd kp)) (fun q => dret (fst kp, q))) l).
Proof. apply dlist_mono. intros kp. apply dle_bind; auto. intros q. apply dle_refl. Qed.
Lemma subs_mono p : dle (copy_subs r1 p) (copy_subs r2 p).
Proof.
  destruct p; simpl; [|apply dle_refl]. apply dle_bind; [apply dle_refl|]. intros [|x l]; [apply dle_refl|].
  apply dle_bind; [apply dlist_mono, Hr|]. intros y. apply dle_refl.
Qed.
Lemma map_mono p : dle (copy_map r1 p) (copy_map r2 p).
Proof.
  destruct p; simpl; [|apply dle_refl]. apply dle_bind; [apply dle_refl|]. intros [|x l]; [apply dle_refl|].
  apply dle_bind; [apply entry_mono|]. intros y. apply dle_refl.
Qed.
Lemma map_any_mono p : dle (copy_map_any r1 p) (copy_map_any r2 p).
Proof.
  destruct p; simpl; [|apply dle_refl]. apply dle_bind; [apply dle_refl|]. intros l.
  apply dle_bind; [apply entry_mono|]. intros y. apply dle_refl.
Qed.
Lemma node_mono N : dle (deep_node r1 N) (deep_node r2 N).
Proof.
  unfold deep_node. repeat (apply dle_bind; [first [apply dle_refl|apply subs_mono|apply map_mono|apply map_any_mono|apply Hr]|intros ?]).
  apply dle_refl.
Qed.
End Mono.
Lemma deep_more n : forall p, dle (deep n p) (deep (S n) p).
Proof.
  induction n as [|n IH]; intros [a|]; try apply dle_refl.
  - intros h r H N. simpl in H. congruence.
  - cbn [deep]. apply dle_bind; [apply dle_refl|]. intros N. apply node_mono. intros p. apply IH.
Qed.
Lemma deep_mono n m p h : n <= m -> deep n p h <> OutOfFuel -> deep m p h = deep n p h.
Proof.
  intros L H. induction L as [|m L IH]; auto. apply (deep_more m p h); [exact IH|]. congruence.
Qed.
Lemma tree_more n : forall h p s, tree n h p = Some s -> tree (S n) h p = Some s.
Proof.
  induction n as [|n IH]; intros h p s H; destruct p as [a|]; try discriminate H; try (simpl in *; congruence).
  remember (S n) as m eqn:Em. cbn [tree]. rewrite Em in H. cbn [tree] in H.
  obinds H. rewrite <- H. clear H.
  assert (M : forall q y, tree n h q = Some y -> tree m h q = Some y) by (intros; subst m; eauto).
  pose proof (keyed_mono _ _ M) as K. clear IH Em. cbn [obind].
  repeat match goal with
  | E : cell_as _ h _ = Some _ |- _ => rewrite E; clear E; cbn [obind]
  | E : container _ h _ = Some _ |- _ => rewrite E; clear E; cbn [obind]
  | E : tree n h _ = Some _ |- _ => apply M in E; rewrite E; clear E; cbn [obind]
  | E : trees (tree n h) ?o = Some _ |- _ => apply (trees_mono _ _ _ o _ (fun x H => H) M) in E; rewrite E; clear E; cbn [obind]
  | E : trees (keyed (tree n h)) ?o = Some _ |- _ => apply (trees_mono _ _ _ o _ (fun x H => H) K) in E; rewrite E; clear E; cbn [obind]
  end.
  reflexivity.
Qed.
Lemma tree_mono n m h p s : n <= m -> tree n h p = Some s -> tree m h p = Some s.
Proof. induction 1; auto using tree_more. Qed.
Lemma stands_fun h p s t : stands_for h p s -> stands_for h p t -> s = t.
Proof.
  intros [n A] [m B]. apply (tree_mono _ (Nat.max n m)) in A; [|lia]. apply (tree_mono _ (Nat.max n m)) in B; [|lia]. congruence.
Qed.

(** DeepCopy succeeds; the result does not depend on the fuel. *)
Theorem deep_any h p s n : stands_for h p s -> deep n p h <> OutOfFuel ->
  exists p' h', deep n p h = Ok (p', h') /\ ext h h' /\ exists m, good m (List.length h) h' p' s.
Proof.
  intros [m T] N. pose proof (tree_mono m (Nat.max n m) _ _ _ ltac:(lia) T) as T'.
  destruct (deep_ok _ _ _ _ T') as (p' & h' & D & X & G). rewrite (deep_mono n (Nat.max n m)) in D by (auto; lia). eauto 8.
Qed.
Theorem deep_ends h p s : stands_for h p s -> exists n, deep n p h <> OutOfFuel.
Proof. intros [m T]. destruct (deep_ok _ _ _ _ T) as (p' & h' & D & _). exists m. congruence. Qed.

(** Writing to a new cell does not change the original. *)
Lemma write_ext h : forall x c t, List.length h <= x -> ext h (write (h ++ t) x c).
Proof.
  induction h as [|d h IH]; intros x c t L.
  - exists (write t x c). reflexivity.
  - destruct x as [|x]; [simpl in L; lia|]. simpl in *. destruct (IH x c t) as (u & ->); [lia|]. now exists u.
Qed.
Theorem deep_independent h p s n p' h' x c d : stands_for h p s -> deep n p h = Ok (p', h') -> made_of h' p' x ->
  nth_error h' x = Some d -> ~ empty_container d -> stands_for (write h' x c) p s.
Proof.
  intros S D M C E. destruct (deep_any h p s n S) as (p2 & h2 & D2 & (t & X) & m & _ & F); [congruence|].
  assert (p2 = p' /\ h2 = h') as [-> ->] by (split; congruence). destruct (F x M) as [L|(d' & C' & E')]; [|congruence].
  destruct S as [k T]. exists k. eapply tree_ext; [|exact T]. subst h'. now apply write_ext.
Qed.

(** * Shallow copies *)
Lemma entries_same l : forall h, dlist (fun kp : string * option addr => dbind (dret (snd kp)) (fun q => dret (fst kp, q))) l h = Ok (l, h).
Proof.
  induction l as [|[k q] l IH]; intros h; [reflexivity|]. simpl. unfold dbind, dret in *. simpl. now rewrite IH.
Qed.
Lemma shallow_any_ok n h p o : trees (keyed (tree n h)) (container as_map h p) = Some o ->
  exists p' h', copy_map_any dret p h = Ok (p', h') /\ ext h h'
    /\ trees (keyed (tree n h')) (container as_map h' p') = Some o /\ (forall x, p' = Some x -> List.length h <= x).
Proof.
  intros C. destruct p as [a|].
  - simpl in C. destruct (cell_as as_map h a) as [l|] eqn:E; [|discriminate].
    unfold copy_map_any. rewrite (dbind_ok _ _ _ _ _ (dread_as _ _ _ _ E)). rewrite (dbind_ok _ _ _ _ _ (entries_same l h)).
    exists (Some (List.length h)), (h ++ [DMap l]). split; [reflexivity|]. split; [apply ext_one|]. split; [|intros x Q; injection Q as <-; lia].
    simpl. rewrite (alloc_cell as_map (DMap l) h l eq_refl). simpl. simpl in C.
    destruct (all_some (keyed (tree n h)) l) as [r|] eqn:S0; [|discriminate].
    rewrite (all_some_mono _ (keyed (tree n (h ++ [DMap l]))) l r (fun x y _ => keyed_mono _ _ (fun q z => tree_ext n _ _ q z (ext_one h _)) x y) S0). exact C.
  - injection C as <-. exists None, h. split; auto. split; [apply ext_refl|]. split; auto. discriminate.
Qed.
Lemma shallow_data_ok h p o : container as_data h p = Some o ->
  exists p' h', copy_data p h = Ok (p', h') /\ ext h h' /\ container as_data h' p' = Some o /\ (forall x, p' = Some x -> List.length h <= x).
Proof.
  intros C. destruct p as [a|]; simpl in C.
  - destruct (cell_as as_data h a) as [l|] eqn:E; [|discriminate]. injection C as <-. unfold copy_data.
    rewrite (dbind_ok _ _ _ _ _ (dread_as _ _ _ _ E)).
    exists (Some (List.length h)), (h ++ [DData l]). split; auto. split; [apply ext_one|].
    split; [simpl; now rewrite (alloc_cell as_data (DData l) _ l eq_refl)|]. intros x Q. injection Q as <-. lia.
  - injection C as <-. exists None, h. split; auto. split; [apply ext_refl|]. split; auto. discriminate.
Qed.

Theorem shallow_ok h a s : stands_for h (Some a) s ->
  exists a' t N N', shallow (Some a) h = Ok (Some a', h ++ t) /\ stands_for (h ++ t) (Some a') s /\ List.length h <= a'
    /\ nth_error h a = Some (DNode N) /\ nth_error (h ++ t) a' = Some (DNode N')
    /\ subnodes (h ++ t) N' = subnodes h N /\ firstn 9 (containers N') = firstn 9 (containers N)
    /\ (forall x, In (Some x) (skipn 9 (containers N')) -> List.length h <= x).
Proof.
  intros [[|n] T]; [discriminate|]. cbn [tree] in T. obinds T. injection T as <-. unfold shallow. rewrite (dbind_ok _ _ _ _ _ (dread_as _ _ _ _ E)).
  assert (Nx : nth_error h a = Some (DNode x)).
  { unfold cell_as, obind in E. destruct (nth_error h a) as [c|]; [|discriminate]. destruct c; try discriminate. simpl in E. congruence. }
  destruct (shallow_data_ok _ _ _ E15) as (p1 & h1 & Q1 & Y1 & G1 & L1). rewrite (dbind_ok _ _ _ _ _ Q1).
  pose proof (trees_map_ext _ _ _ _ _ Y1 E16) as E16'.
  destruct (shallow_any_ok n h1 _ _ E16') as (p2 & h2 & Q2 & Y2 & G2 & L2). rewrite (dbind_ok _ _ _ _ _ Q2).
  pose proof (ext_trans _ _ _ Y1 Y2) as X2.
  destruct (shallow_data_ok h2 _ _ (container_ext _ _ _ _ _ X2 E17)) as (p3 & h3 & Q3 & Y3 & G3 & L3). rewrite (dbind_ok _ _ _ _ _ Q3).
  pose proof (ext_trans _ _ _ X2 Y3) as X3.
  match goal with |- context [DNode ?N] => set (N' := N) end.
  assert (Y : ext h3 (h3 ++ [DNode N'])) by apply ext_one. pose proof (ext_trans _ _ _ X3 Y) as (t & Et).
  exists (List.length h3), t, x, N'. rewrite <- Et. split; [reflexivity|].
  pose proof (ext_trans _ _ _ X3 Y) as X. clear Et.
  assert (NN : nth_error (h3 ++ [DNode N']) (List.length h3) = Some (DNode N')) by (rewrite nth_error_app2, Nat.sub_diag; auto).
  remember (h3 ++ [DNode N']) as h' eqn:Eh. clear Eh.
  pose proof (ext_len _ _ X3) as Lh. pose proof (ext_len _ _ Y1) as Lh1. pose proof (ext_len _ _ X2) as Lh2.
  assert (Z2 := ext_trans _ _ _ Y3 Y). assert (Z1 := ext_trans _ _ _ Y2 Z2).
  assert (Sub : forall q o, trees (tree n h) (container as_subs h q) = Some o -> pointers h' q = pointers h q)
    by (intros q o H; apply (subs_pointers _ _ _ _ _ X H)).
  assert (Map : forall q o, trees (keyed (tree n h)) (container as_map h q) = Some o -> pointers h' q = pointers h q)
    by (intros q o H; apply (map_pointers _ _ _ _ _ X H)).
  split; [|split; [auto|split; [auto|split; [auto|split; [|split; [reflexivity|]]]]]].
  - exists (S n). cbn [tree]. unfold cell_as at 1. rewrite NN.
    cbn [obind as_node d_req d_ex d_enum d_any d_all d_one d_not d_if d_then d_else d_items
      d_pnames d_props d_pprops d_defs d_ann d_fdefs d_fdata d_kw N'].
    rewrite (container_ext _ _ _ _ _ X E0), (container_ext _ _ _ _ _ X E1), (container_ext _ _ _ _ _ X E2); cbn [obind].
    rewrite (trees_subs_ext _ _ _ _ _ X E3); cbn [obind]. rewrite (trees_subs_ext _ _ _ _ _ X E4); cbn [obind].
    rewrite (trees_subs_ext _ _ _ _ _ X E5); cbn [obind].
    rewrite (tree_ext _ _ _ _ _ X E6); cbn [obind]. rewrite (tree_ext _ _ _ _ _ X E7); cbn [obind]. rewrite (tree_ext _ _ _ _ _ X E8); cbn [obind].
    rewrite (tree_ext _ _ _ _ _ X E9); cbn [obind]. rewrite (tree_ext _ _ _ _ _ X E10); cbn [obind]. rewrite (tree_ext _ _ _ _ _ X E11); cbn [obind].
    rewrite (trees_map_ext _ _ _ _ _ X E12); cbn [obind]. rewrite (trees_map_ext _ _ _ _ _ X E13); cbn [obind].
    rewrite (trees_map_ext _ _ _ _ _ X E14); cbn [obind]. rewrite (container_ext _ _ _ _ _ Z1 G1); cbn [obind].
    rewrite (trees_map_ext _ _ _ _ _ Z2 G2); cbn [obind]. rewrite (container_ext _ _ _ _ _ Y G3); cbn [obind]. reflexivity.
  - unfold subnodes, N'. cbn [flat_map d_any d_all d_one d_not d_if d_then d_else d_items
      d_pnames d_props d_pprops d_defs d_fdefs]. f_equal.
    rewrite (Sub _ _ E3), (Sub _ _ E4), (Sub _ _ E5), (Map _ _ E12), (Map _ _ E13), (Map _ _ E14). do 6 f_equal. rewrite !app_nil_r.
    destruct (d_fdefs x) as [b|] eqn:Eb.
    + simpl in E16, Q2. destruct (cell_as as_map h b) as [l|] eqn:C; [|discriminate].
      pose proof (cell_ext _ _ _ _ _ Y1 C) as C1. rewrite (dbind_ok _ _ _ _ _ (dread_as _ _ _ _ C1)) in Q2.
      rewrite (dbind_ok _ _ _ _ _ (entries_same l h1)) in Q2. injection Q2 as <- <-.
      simpl. rewrite (ext_nth _ _ (List.length h1) (DMap l) Z2) by (rewrite nth_error_app2, Nat.sub_diag; auto).
      unfold cell_as, obind in C. destruct (nth_error h b) as [[]|]; try discriminate C. simpl in C. congruence.
    + simpl in Q2. injection Q2 as <- _. reflexivity.
  - intros y I. unfold containers, N' in I. simpl in I. destruct I as [I|[I|[I|[]]]].
    + apply L1 in I. lia.
    + apply L2 in I. lia.
    + apply L3 in I. lia.
Qed.
