(** Proofs about FindAndMarkRecursion. *)
From Coq Require Import ZArith List String Bool Lia Arith.
From Verif Require Import Base Scalars Heap Validate Spec_Validate Validate_proofs Check_proofs
  Heap_lemmas Spec_Mark.
Import ListNotations.
Open Scope string_scope.
Open Scope list_scope.
Open Scope nat_scope.

(** * Chains of recursive leaves *)

Inductive rchain (h : list cell) : nat -> addr -> addr -> Prop :=
| rc_refl n x : rchain h n x x
| rc_step n x b y z : get_base h x = Some b -> b_shape b = Some (SRec y) ->
    get_props h (b_fdefs b) = Some [] -> rchain h n y z -> rchain h (S n) x z.

Lemma rchain_le h n m x y : n <= m -> rchain h n x y -> rchain h m x y.
Proof.
  intros L H. revert m L. induction H; intros m L; [constructor|].
  destruct m; [lia|]. econstructor; eauto. apply IHrchain. lia.
Qed.

Lemma rchain_trans h n m x y z : rchain h n x y -> rchain h m y z -> rchain h (n + m) x z.
Proof.
  induction 1; intros K; simpl.
  - eapply rchain_le; [|exact K]. lia.
  - econstructor; eauto.
Qed.

Lemma rchain_stands h n x y : rchain h n x y -> stands_for h x y.
Proof. induction 1; [constructor|]. econstructor; eauto. eexists; eauto. Qed.

(** Leaves of [h] are leaves of [h']. *)
Definition keeps_leaves (h h' : list cell) : Prop :=
  (forall x b y, get_base h x = Some b -> b_shape b = Some (SRec y) ->
     exists b', get_base h' x = Some b' /\ b_shape b' = b_shape b /\ b_fdefs b' = b_fdefs b)
  /\ forall m, get_props h m = Some [] -> get_props h' m = Some [].

Lemma rchain_mono h h' n x y : keeps_leaves h h' -> rchain h n x y -> rchain h' n x y.
Proof.
  intros [K1 K2]. induction 1; [constructor|].
  destruct (K1 _ _ _ H H0) as (b' & A & B & C).
  apply (rc_step h' n x b' y z); [exact A|congruence|rewrite C; auto|assumption].
Qed.

(** * The change marking makes *)

Definition erel (h' : list cell) (k : nat) (e e' : string * prop) : Prop :=
  fst e' = fst e /\ p_name (snd e') = p_name (snd e) /\ p_req (snd e') = p_req (snd e)
  /\ rchain h' k (p_base (snd e')) (p_base (snd e)).

Definition srel (h' : list cell) (k : nat) (o o' : option shape) : Prop :=
  o' = o
  \/ exists f i i', o = Some (SArray f) /\ a_items f = Some i
       /\ o' = Some (SArray (set_items (Some i') f)) /\ rchain h' k i' i.

Definition brel (h' : list cell) (k : nat) (b b' : base) : Prop :=
  b' = set_visited (b_visited b') (set_shape (b_shape b') b) /\ srel h' k (b_shape b) (b_shape b').

(** New cells are recursive leaves and their empty containers. *)
Definition harmless (h : list cell) (c : cell) : Prop :=
  match c with
  | CBase b => (exists y, b_shape b = Some (SRec y)) /\ get_props h (b_fdefs b) = Some [] /\ b_unwrapped b = true
  | CProps l => l = []
  | CSlice l => l = []
  | CFacets _ => True
  | CDT _ => False
  end.
Definition newleaves (h h' : list cell) : Prop :=
  forall a c, nth_error h a = None -> nth_error h' a = Some c -> harmless h' c.

Definition redir (k : nat) (h h' : list cell) : Prop :=
  (forall a b, get_base h a = Some b -> exists b', get_base h' a = Some b' /\ brel h' k b b')
  /\ (forall m l, get_props h m = Some l ->
        exists l', get_props h' m = Some l' /\ Forall2 (erel h' k) l l')
  /\ (forall m l, get_slice h m = Some l ->
        exists l', get_slice h' m = Some l' /\ Forall2 (fun x x' => rchain h' k x' x) l l')
  /\ (forall m l, get_facets h m = Some l -> get_facets h' m = Some l)
  /\ (forall m l, get_dt h m = Some l -> get_dt h' m = Some l)
  /\ newleaves h h'.

Lemma brel_fdefs h k b b' : brel h k b b' -> b_fdefs b' = b_fdefs b.
Proof. intros [E _]. rewrite E. reflexivity. Qed.

Lemma brel_unwrapped h k b b' : brel h k b b' -> b_unwrapped b' = b_unwrapped b.
Proof. intros [E _]. rewrite E. reflexivity. Qed.

Lemma redir_keeps k h h' : redir k h h' -> keeps_leaves h h'.
Proof.
  intros (A & B & _). split.
  - intros x b y G S. destruct (A _ _ G) as (b' & G' & R). exists b'. split; [exact G'|]. split.
    + destruct R as [_ [R|(f & i & i' & R & _)]]; congruence.
    + eapply brel_fdefs; eauto.
  - intros m G. destruct (B _ _ G) as (l' & G' & F). inversion F; subst. exact G'.
Qed.

Lemma erel_mono h h' k k' e e' : keeps_leaves h h' -> k <= k' -> erel h k e e' -> erel h' k' e e'.
Proof.
  intros K L (A & B & C & D). repeat split; auto.
  eapply rchain_le; [exact L|]. eapply rchain_mono; eauto.
Qed.

Lemma F2_refl {A} (R : A -> A -> Prop) l : (forall x, R x x) -> Forall2 R l l.
Proof. intros H. induction l; constructor; auto. Qed.
Lemma F2_mono {A B} (R R' : A -> B -> Prop) l l' :
  (forall x y, R x y -> R' x y) -> Forall2 R l l' -> Forall2 R' l l'.
Proof. intros H. induction 1; constructor; auto. Qed.
Lemma F2_trans {A} (R1 R2 R3 : A -> A -> Prop) l1 l2 l3 :
  (forall x y z, R1 x y -> R2 y z -> R3 x z) -> Forall2 R1 l1 l2 -> Forall2 R2 l2 l3 -> Forall2 R3 l1 l3.
Proof.
  intros H F. revert l3. induction F; intros l3 G; inversion G; subst; constructor; eauto.
Qed.
Lemma F2_upd {A B} (R : A -> B -> Prop) l l' i x y :
  Forall2 R l l' -> nth_error l i = Some x -> R x y -> Forall2 R l (upd i y l').
Proof.
  intros F. revert i. induction F; intros [|i] N H1; simpl in *; try discriminate.
  - injection N as ->. constructor; auto.
  - constructor; auto.
Qed.
Lemma F2_nth {A B} (R : A -> B -> Prop) l l' i x :
  Forall2 R l l' -> nth_error l i = Some x -> exists y, nth_error l' i = Some y /\ R x y.
Proof.
  intros F. revert i. induction F; intros [|i] N; simpl in *; try discriminate; eauto.
  injection N as ->. eauto.
Qed.
Lemma F2_nth_r {A B} (R : A -> B -> Prop) l l' i y :
  Forall2 R l l' -> nth_error l' i = Some y -> exists x, nth_error l i = Some x /\ R x y.
Proof.
  intros F. revert i. induction F; intros [|i] N; simpl in *; try discriminate; eauto.
  injection N as ->. eauto.
Qed.

Lemma erel_refl h k e : erel h k e e.
Proof. repeat split. constructor. Qed.
Lemma brel_refl h k b : brel h k b b.
Proof. split; [destruct b; reflexivity|now left]. Qed.
Lemma redir_refl h k : redir k h h.
Proof.
  split; [|split; [|split; [|split; [|split]]]]; auto.
  - intros a b E. eauto using brel_refl.
  - intros m l E. exists l. split; auto. apply F2_refl. apply erel_refl.
  - intros m l E. exists l. split; auto. apply F2_refl. constructor.
  - intros a c A B. congruence.
Qed.

(** A cell and its successor under [redir]; used for [redir_cells] below. *)
Definition crel (h' : list cell) (k : nat) (c c' : cell) : Prop :=
  match c, c' with
  | CBase b, CBase b' => brel h' k b b'
  | CProps l, CProps l' => Forall2 (erel h' k) l l'
  | CSlice l, CSlice l' => Forall2 (fun x x' => rchain h' k x' x) l l'
  | CFacets l, CFacets l' => l' = l
  | CDT l, CDT l' => l' = l
  | _, _ => False
  end.

Lemma redir_cells k h h' :
  redir k h h' <->
  (forall a c, nth_error h a = Some c -> exists c', nth_error h' a = Some c' /\ crel h' k c c')
  /\ newleaves h h'.
Proof.
  split.
  - intros (A & B & C & D & E & F). split; auto. intros a [b|l|l|l|l] N.
    + apply get_base_nth in N. destruct (A _ _ N) as (b' & G & R). apply get_base_nth in G. eauto.
    + apply get_props_nth in N. destruct (B _ _ N) as (b' & G & R). apply get_props_nth in G. eauto.
    + apply get_facets_nth in N. specialize (D _ _ N). apply get_facets_nth in D. exists (CFacets l). split; auto. reflexivity.
    + apply get_slice_nth in N. destruct (C _ _ N) as (b' & G & R). apply get_slice_nth in G. eauto.
    + apply get_dt_nth in N. specialize (E _ _ N). apply get_dt_nth in E. exists (CDT l). split; auto. reflexivity.
  - intros [H NL]. split; [|split; [|split; [|split; [|split]]]]; auto; intros a l N.
    + apply get_base_nth in N. destruct (H _ _ N) as ([] & G & R); simpl in R; try contradiction.
      apply get_base_nth in G. eauto.
    + apply get_props_nth in N. destruct (H _ _ N) as ([] & G & R); simpl in R; try contradiction.
      apply get_props_nth in G. eauto.
    + apply get_slice_nth in N. destruct (H _ _ N) as ([] & G & R); simpl in R; try contradiction.
      apply get_slice_nth in G. eauto.
    + apply get_facets_nth in N. destruct (H _ _ N) as ([] & G & R); simpl in R; try contradiction.
      apply get_facets_nth in G. now subst.
    + apply get_dt_nth in N. destruct (H _ _ N) as ([] & G & R); simpl in R; try contradiction.
      apply get_dt_nth in G. now subst.
Qed.

Lemma harmless_mono h h' c : keeps_leaves h h' -> harmless h c -> harmless h' c.
Proof. intros [_ K]. destruct c; simpl; auto. intros (A & B & C). auto. Qed.

Lemma harmless_crel h h' k c c' : keeps_leaves h h' -> crel h' k c c' -> harmless h c -> harmless h' c'.
Proof.
  intros [K1 K2] R H. destruct c, c'; simpl in *; auto; try contradiction.
  - destruct H as ([y Y] & F & Un). split; [|split].
    + destruct R as [_ [R|(f & i & i' & R & _)]]; [exists y; congruence|congruence].
    + rewrite (brel_fdefs _ _ _ _ R). auto.
    + rewrite (brel_unwrapped _ _ _ _ R). auto.
  - subst. now inversion R.
  - subst. now inversion R.
Qed.

Lemma brel_trans h1 h2 k1 k2 b b1 b2 : keeps_leaves h1 h2 ->
  brel h1 k1 b b1 -> brel h2 k2 b1 b2 -> brel h2 (k2 + k1) b b2.
Proof.
  intros K [A1 S1] [A2 S2]. split.
  - rewrite A2 at 1. rewrite A1. reflexivity.
  - destruct S1 as [S1|(f & i & i' & E1 & E2 & E3 & E4)].
    + rewrite S1 in S2. destruct S2 as [S2|(f & i & i' & F1 & F2 & F3 & F4)]; [now left|].
      right. exists f, i, i'. repeat split; auto. eapply rchain_le; [|exact F4]. lia.
    + right. exists f, i. destruct S2 as [S2|(g & j & j' & F1 & F2 & F3 & F4)].
      * exists i'. repeat split; auto; [congruence|]. eapply rchain_le; [|eapply rchain_mono; eauto]. lia.
      * rewrite E3 in F1. injection F1 as <-. simpl in F2. injection F2 as <-.
        exists j'. repeat split; auto. eapply rchain_trans; [exact F4|]. eapply rchain_mono; eauto.
Qed.

Lemma redir_trans k1 k2 h h1 h2 : redir k1 h h1 -> redir k2 h1 h2 -> redir (k2 + k1) h h2.
Proof.
  intros X Y. pose proof (redir_keeps _ _ _ Y) as K.
  pose proof Y as Y'. rewrite redir_cells in Y'. destruct Y' as [Y' _].
  destruct X as (A1 & B1 & C1 & D1 & E1 & L1), Y as (A2 & B2 & C2 & D2 & E2 & L2).
  split; [|split; [|split; [|split; [|split]]]]; auto.
  - intros a b G. destruct (A1 _ _ G) as (b1 & G1 & R1). destruct (A2 _ _ G1) as (b2 & G2 & R2).
    exists b2. split; auto. eapply brel_trans; eauto.
  - intros a b G. destruct (B1 _ _ G) as (b1 & G1 & R1). destruct (B2 _ _ G1) as (b2 & G2 & R2).
    exists b2. split; auto. eapply F2_trans; [|exact R1|exact R2].
    intros x y z (P1 & P2 & P3 & P4) (Q1 & Q2 & Q3 & Q4). repeat split; try congruence.
    eapply rchain_trans; [exact Q4|]. eapply rchain_mono; eauto.
  - intros a b G. destruct (C1 _ _ G) as (b1 & G1 & R1). destruct (C2 _ _ G1) as (b2 & G2 & R2).
    exists b2. split; auto. eapply F2_trans; [|exact R1|exact R2].
    intros x y z P4 Q4. eapply rchain_trans; [exact Q4|]. eapply rchain_mono; eauto.
  - intros a c N1 N3. destruct (nth_error h1 a) as [c1|] eqn:N2; [|eapply L2; eauto].
    destruct (Y' _ _ N2) as (c' & N3' & Cr). assert (c' = c) by congruence. subst c'.
    eapply harmless_crel; eauto.
Qed.

Lemma redir_same_cells h h' k : (forall a c, nth_error h a = Some c -> nth_error h' a = Some c) ->
  newleaves h h' -> redir k h h'.
Proof.
  intros H NL. apply redir_cells. split; auto. intros a c N. exists c. split; auto.
  destruct c; simpl; auto using brel_refl, F2_refl, erel_refl, rc_refl.
Qed.

(** Overwriting one cell after [redir]. *)
Lemma crel_mono h h' k k' c c' : keeps_leaves h h' -> k <= k' -> crel h k c c' -> crel h' k' c c'.
Proof.
  intros K L. destruct c, c'; simpl; auto.
  - intros [A S]. split; auto. destruct S as [S|(f & i & i' & E1 & E2 & E3 & E4)]; [now left|].
    right. exists f, i, i'. repeat split; auto. eapply rchain_le; [exact L|]. eapply rchain_mono; eauto.
  - apply F2_mono. intros. eapply erel_mono; eauto.
  - apply F2_mono. intros. eapply rchain_le; [exact L|]. eapply rchain_mono; eauto.
Qed.

Lemma redir_write k k' h h1 m c0 c1 :
  redir k h h1 -> nth_error h m = Some c0 -> keeps_leaves h1 (upd m c1 h1) -> k <= k' ->
  crel (upd m c1 h1) k' c0 c1 -> redir k' h (upd m c1 h1).
Proof.
  intros R N K L C. rewrite redir_cells in R. destruct R as [R NL].
  apply redir_cells. split; cycle 1.
  { intros a c N1 N2. assert (Ne : m <> a) by congruence. rewrite nth_error_upd_neq in N2 by auto.
    eapply harmless_mono; [exact K|]. eapply NL; eauto. }
  intros a c Na.
  destruct (R _ _ Na) as (c' & N' & C'). destruct (Nat.eq_dec m a) as [->|Ne].
  - exists c1. split; [eapply nth_error_upd_eq; eauto|]. replace c with c0 by congruence. exact C.
  - exists c'. split; [rewrite nth_error_upd_neq; auto|]. eapply crel_mono; eauto.
Qed.

(** * Finite descent, with all maps and slices present *)

Definition conts (h : list cell) (sh : shape) : Prop :=
  match sh with
  | SObject f => (exists ps, props_of h (o_props f) ps) /\ (exists ps, props_of h (o_pprops f) ps)
  | SUnion sl _ => exists l, get_slice h sl = Some l
  | _ => True
  end.

Definition norec (sh : shape) : Prop := forall hd, sh <> SRec hd.

Inductive ends (h : list cell) : addr -> Prop :=
| ends_intro a b m : get_base h a = Some b -> get_props h (b_fdefs b) = Some m ->
    (forall k p, In (k, p) m -> ends h (p_base p)) ->
    (forall sh, b_shape b = Some sh -> norec sh -> conts h sh) ->
    (forall sh c, b_shape b = Some sh -> norec sh -> child h sh c -> ends h c) ->
    ((forall hd, b_shape b <> Some (SRec hd)) -> b_unwrapped b = true) ->
    ends h a.

Definition leaf (h : list cell) (x a : addr) : Prop :=
  exists b, get_base h x = Some b /\ b_shape b = Some (SRec a) /\ get_props h (b_fdefs b) = Some [].

Lemma leaf_ends h x a : leaf h x a -> ends h x.
Proof.
  intros (b & A & B & C). econstructor; [exact A|exact C|intros ? ? []| | |].
  - intros sh E N. exfalso. apply (N a). congruence.
  - intros sh c E N. exfalso. apply (N a). congruence.
  - intros N. destruct (N a B).
Qed.

Lemma leaf_chain h x a : leaf h x a -> rchain h 1 x a.
Proof. intros (b & A & B & C). econstructor; eauto. constructor. Qed.

Lemma ends_chain h k x y : rchain h k x y -> ends h y -> ends h x.
Proof. intros R E. destruct R; auto. eapply leaf_ends. exists b. eauto. Qed.

Lemma ends_descent h a : ends h a -> finite_descent h a.
Proof.
  induction 1 as [a b m G F _ IH1 _ _ IH2 _]. constructor. intros y D. inversion D; subst.
  - destruct H as (b0 & Eb & Es). assert (b0 = b) by congruence. subst. eapply IH2; eauto.
  - assert (b0 = b) by congruence. subst. rewrite F in H0. injection H0 as <-. eapply IH1; eauto.
Qed.

Lemma props_of_redir k h h' o l l' : redir k h h' -> props_of h o l -> props_of h' o l' ->
  Forall2 (erel h' k) l l'.
Proof.
  intros (_ & R & _) [[-> ->]|(m & -> & G)] [[X ->]|(m' & X & G')]; try congruence; [constructor|].
  injection X as <-. destruct (R _ _ G) as (l1 & G1 & F). congruence.
Qed.

Lemma props_of_redir_ex k h h' o l : redir k h h' -> props_of h o l -> exists l', props_of h' o l'.
Proof.
  intros (_ & R & _) [[-> ->]|(m & -> & G)]; [exists []; now left|].
  destruct (R _ _ G) as (l1 & G1 & F). exists l1. right. eauto.
Qed.

Lemma F2_in_r {A B} (R : A -> B -> Prop) l l' y :
  Forall2 R l l' -> In y l' -> exists x, In x l /\ R x y.
Proof.
  intros F I. apply In_nth_error in I. destruct I as [i N].
  destruct (F2_nth_r _ _ _ _ _ F N) as (x & Nx & H). exists x. split; auto. eapply nth_error_In; eauto.
Qed.

Lemma shape_redir k h h' sh sh' : redir k h h' -> srel h' k (Some sh) (Some sh') -> norec sh' ->
  norec sh /\ (conts h sh -> conts h' sh'
     /\ forall c', child h' sh' c' -> exists c, child h sh c /\ rchain h' k c' c).
Proof.
  intros R S N. destruct S as [S|(f & i & i' & E1 & E2 & E3 & E4)].
  - injection S as <-. split; auto. intros C. split.
    + destruct sh'; simpl in *; auto.
      * destruct C as [[p1 C1] [p2 C2]]. split; eapply props_of_redir_ex; eauto.
      * destruct C as [l C]. destruct R as (_ & _ & R & _). destruct (R _ _ C) as (l' & G & _). eauto.
    + intros c' H. inversion H; subst; simpl in C.
      * exists c'. split; [now constructor|constructor].
      * destruct C as [[p1 C1] _]. pose proof (props_of_redir _ _ _ _ _ _ R C1 H0) as F.
        destruct (F2_in_r _ _ _ _ F H1) as ([k1 q] & I & (_ & _ & _ & X)). simpl in X.
        exists (p_base q). split; [|exact X]. eapply ch_prop; eauto.
      * destruct C as [_ [p1 C1]]. pose proof (props_of_redir _ _ _ _ _ _ R C1 H0) as F.
        destruct (F2_in_r _ _ _ _ F H1) as ([k1 q] & I & (_ & _ & _ & X)). simpl in X.
        exists (p_base q). split; [|exact X]. eapply ch_pprop; eauto.
      * destruct C as [l1 C]. destruct R as (_ & _ & R & _). destruct (R _ _ C) as (l' & G & F).
        assert (l' = l) by congruence. subst. destruct (F2_in_r _ _ _ _ F H1) as (x & I & X).
        exists x. split; [|exact X]. econstructor; eauto.
      * exfalso. apply (N c'). reflexivity.
  - injection E1 as ->. injection E3 as ->. split; [intros hd; discriminate|]. intros _. split; [exact I|].
    intros c' H. inversion H; subst. simpl in H1. injection H1 as <-. exists i. split; auto. now constructor.
Qed.

Lemma ends_redir k h h' a : redir k h h' -> ends h a -> ends h' a.
Proof.
  intros R. induction 1 as [a b m G F _ IH1 C _ IH2 Un].
  pose proof R as (A & B & _). destruct (A _ _ G) as (b' & G' & E). destruct (B _ _ F) as (m' & F' & FF).
  assert (S : forall sh', b_shape b' = Some sh' -> exists sh, b_shape b = Some sh /\ srel h' k (Some sh) (Some sh')).
  { intros sh' X. destruct E as [_ E]. rewrite X in E.
    destruct (b_shape b) as [sh|]; [eauto|]. destruct E as [E|(f & i & i' & E & _)]; discriminate. }
  apply (ends_intro h' a b' m'); [exact G'|rewrite (brel_fdefs _ _ _ _ E); exact F'| | | |].
  - intros k0 p' I. destruct (F2_in_r _ _ _ _ FF I) as ([k1 p] & I' & (_ & _ & _ & X)). simpl in X.
    eapply ends_chain; [exact X|]. eauto.
  - intros sh' X N. destruct (S _ X) as (sh & Y & Z). destruct (shape_redir _ _ _ _ _ R Z N) as [N' K].
    apply K. eauto.
  - intros sh' c' X N Hc. destruct (S _ X) as (sh & Y & Z). destruct (shape_redir _ _ _ _ _ R Z N) as [N' K].
    destruct (K (C _ Y N')) as [_ K']. destruct (K' _ Hc) as (c & Hc' & Hr).
    eapply ends_chain; [exact Hr|]. eauto.
  - intros N. rewrite (brel_unwrapped _ _ _ _ E). apply Un. intros hd X. destruct E as [_ [E|(f & i & i' & E & _)]]; [apply (N hd); congruence|congruence].
Qed.

(** * Inversion of runs *)

Definition unok {A} (r : res A) : Prop := forall b, r <> Ok b.

Lemma bind_run {A B} (m : M A) (f : A -> M B) s r s' : bind m f s = (r, s') ->
  (exists a s1, m s = (Ok a, s1) /\ f a s1 = (r, s'))
  \/ (unok r /\ exists q, m s = (q, s') /\ unok q /\ (r = OutOfFuel -> q = OutOfFuel)).
Proof.
  unfold bind. destruct (m s) as [[a| | |] s1]; intros H; [left; eauto| | |];
    right; injection H as <- <-; (split; [intros b; discriminate|]); eexists;
    (split; [reflexivity|]); (split; [intros b; discriminate|auto; discriminate]).
Qed.

Lemma rd_run {A B} (get : list cell -> addr -> option A) a (f : A -> M B) s r s' :
  bind (rd get a) f s = (r, s') ->
  (exists x, get (heap s) a = Some x /\ f x s = (r, s')) \/ (r = Panic /\ s' = s).
Proof.
  unfold bind, rd. destruct (get (heap s) a); intros H; [left; eauto|right; injection H; auto].
Qed.

(** * The specification of FindAndMarkRecursion *)

Definition moved (s s' : st) : Prop :=
  maps_keyed (heap s') /\ exists k, redir k (heap s) (heap s').

Lemma moved_trans s1 s2 s3 : moved s1 s2 -> moved s2 s3 -> moved s1 s3.
Proof.
  intros (A & k & B) (C & k' & D). split; auto. eexists. eapply redir_trans; eauto.
Qed.
Lemma moved_refl s : maps_keyed (heap s) -> moved s s.
Proof. intros K. split; auto. exists 0. apply redir_refl. Qed.

Definition outcome (h : list cell) (a : addr) (r : res (option addr)) : Prop :=
  match r with Ok None => ends h a | Ok (Some x) => leaf h x a | _ => True end.

Definition good_rec (rec : addr -> M (option addr)) : Prop :=
  forall a s r s', maps_keyed (heap s) -> rec a s = (r, s') -> moved s s' /\ outcome (heap s') a r.

Lemma keyed_F2 h k (l l' : omap prop) : Forall2 (erel h k) l l' -> map fst l' = map fst l.
Proof. induction 1 as [|x y l l' (E & _) _ IH]; simpl; congruence. Qed.

Lemma oset_upd {A} (l : omap A) : forall i k q v, NoDup (map fst l) -> nth_error l i = Some (k, q) ->
  oset k v l = upd i (k, v) l.
Proof.
  induction l as [|[k0 v0] l IH]; intros [|i] k q v N E; simpl in *; try discriminate.
  - injection E as -> ->. now rewrite String.eqb_refl.
  - inversion N; subst. destruct (String.eqb_spec k k0) as [->|Ne].
    + exfalso. apply H1. apply nth_error_In in E. apply (in_map fst) in E. exact E.
    + f_equal. eapply IH; eauto.
Qed.

Lemma keys_upd (l : omap prop) i k q v : nth_error l i = Some (k, q) -> map fst (upd i (k, v) l) = map fst l.
Proof.
  revert i. induction l as [|[k0 v0] l IH]; intros [|i] E; simpl in *; try discriminate; auto.
  - injection E as -> ->. reflexivity.
  - f_equal. eauto.
Qed.

Lemma keeps_write_props h m l l' : get_props h m = Some l -> l <> [] -> keeps_leaves h (upd m (CProps l') h).
Proof.
  intros G Ne. apply get_props_nth in G. split.
  - intros x b y B S. exists b. split; auto. apply get_base_nth in B. apply get_base_nth.
    rewrite nth_error_upd_neq; auto. intros ->. congruence.
  - intros x E. apply get_props_nth in E. apply get_props_nth. rewrite nth_error_upd_neq; auto. intros ->. congruence.
Qed.

Lemma keeps_write_slice h m l l' : get_slice h m = Some l -> keeps_leaves h (upd m (CSlice l') h).
Proof.
  intros G. apply get_slice_nth in G. split.
  - intros x b y B S. exists b. split; auto. apply get_base_nth in B. apply get_base_nth.
    rewrite nth_error_upd_neq; auto. intros ->. congruence.
  - intros x E. apply get_props_nth in E. apply get_props_nth. rewrite nth_error_upd_neq; auto. intros ->. congruence.
Qed.

Lemma keeps_write_base h a b b' : get_base h a = Some b ->
  (forall y, b_shape b = Some (SRec y) -> b_shape b' = b_shape b) -> b_fdefs b' = b_fdefs b ->
  keeps_leaves h (upd a (CBase b') h).
Proof.
  intros G S F. apply get_base_nth in G. split.
  - intros x c y B Sc. apply get_base_nth in B. destruct (Nat.eq_dec a x) as [->|N].
    + assert (c = b) by congruence. subst c. exists b'. split; [|eauto].
      apply get_base_nth. eapply nth_error_upd_eq; eauto.
    + exists c. split; auto. apply get_base_nth. rewrite nth_error_upd_neq; auto.
  - intros x E. apply get_props_nth in E. apply get_props_nth. rewrite nth_error_upd_neq; auto. intros ->. congruence.
Qed.

Lemma keyed_write_base h a b : maps_keyed h -> maps_keyed (upd a (CBase b) h).
Proof.
  intros K m l G. apply get_props_nth in G. destruct (Nat.eq_dec a m) as [->|N].
  - exfalso. pose proof (nth_error_lt _ _ _ G) as L. rewrite upd_length in L.
    rewrite nth_error_upd_lt in G by auto. discriminate.
  - rewrite nth_error_upd_neq in G by auto. apply (K m). now apply get_props_nth.
Qed.
Lemma keyed_write_slice h a b : maps_keyed h -> maps_keyed (upd a (CSlice b) h).
Proof.
  intros K m l G. apply get_props_nth in G. destruct (Nat.eq_dec a m) as [->|N].
  - exfalso. pose proof (nth_error_lt _ _ _ G) as L. rewrite upd_length in L.
    rewrite nth_error_upd_lt in G by auto. discriminate.
  - rewrite nth_error_upd_neq in G by auto. apply (K m). now apply get_props_nth.
Qed.
Lemma keyed_write_props h a b : maps_keyed h -> NoDup (map fst b) -> maps_keyed (upd a (CProps b) h).
Proof.
  intros K D m l G. apply get_props_nth in G. destruct (Nat.eq_dec a m) as [->|N].
  - pose proof (nth_error_lt _ _ _ G) as L. rewrite upd_length in L.
    rewrite nth_error_upd_lt in G by auto. congruence.
  - rewrite nth_error_upd_neq in G by auto. apply (K m). now apply get_props_nth.
Qed.

Lemma keeps_leaf h h' x a : keeps_leaves h h' -> leaf h x a -> leaf h' x a.
Proof.
  intros [K1 K2] (b & A & B & C). destruct (K1 _ _ _ A B) as (b' & A' & B' & C').
  exists b'. split; auto. split; [congruence|]. rewrite C'. auto.
Qed.

Section Parts.
Variables (n : nat) (rec : addr -> M (option addr)).
Hypothesis Hrec : good_rec rec.

Definition map_body m : string -> prop -> M unit := fun k p =>
  (r <- rec (p_base p) ;;
   match r with Some x => props_set m k (set_pbase x p) | None => ret tt end)%M.

Lemma map_body_good m l i k p s r s' :
  maps_keyed (heap s) -> get_props (heap s) m = Some l -> nth_error l i = Some (k, p) ->
  map_body m k p s = (r, s') ->
  moved s s'
  /\ (r = Ok tt -> exists l1 e, get_props (heap s') m = Some l1
        /\ nth_error l1 i = Some e /\ ends (heap s') (p_base (snd e))).
Proof.
  intros K G N H. apply bind_run in H. destruct H as [(o & s1 & H1 & H)|(U & q & H1 & _)].
  2:{ destruct (Hrec _ _ _ _ K H1) as [Mv _]. split; [exact Mv|]. intros ->. exfalso. now apply (U tt). }
  destruct (Hrec _ _ _ _ K H1) as [(K1 & j & R) Oc].
  pose proof R as (_ & B & _). destruct (B _ _ G) as (l1 & G1 & F).
  destruct o as [x|]; simpl in Oc.
  2:{ injection H as <- <-. split; [split; eauto|]. intros _.
      destruct (F2_nth _ _ _ _ _ F N) as (e & N1 & (_ & _ & _ & X)). exists l1, e. repeat split; auto.
      eapply ends_chain; [exact X|exact Oc]. }
  destruct (F2_nth _ _ _ _ _ F N) as ([k1 q] & N1 & (E1 & _)). simpl in E1. subst k1.
  unfold props_set, bind, rd, write in H. rewrite G1 in H. injection H as <- <-.
  rewrite (oset_upd l1 i k q _ (K1 _ _ G1) N1).
  assert (KL : keeps_leaves (heap s1) (upd m (CProps (upd i (k, set_pbase x p) l1)) (heap s1))).
  { eapply keeps_write_props; eauto. intros ->. destruct i; discriminate. }
  pose proof (keeps_leaf _ _ _ _ KL Oc) as Lf.
  split.
  - split; simpl.
    + apply keyed_write_props; auto. rewrite (keys_upd _ _ _ _ _ N1). eauto.
    + exists (S j). apply redir_write with (k := j) (c0 := CProps l); auto.
      * now apply get_props_nth.
      * simpl. eapply F2_upd; [|exact N|].
        -- eapply F2_mono; [|exact F]. intros y z Y. exact (erel_mono _ _ j (S j) _ _ KL (le_S _ _ (le_n j)) Y).
        -- repeat split. simpl. apply rchain_le with (n := 1); [lia|]. now apply leaf_chain.
  - intros _. eexists. exists (k, set_pbase x p). split; [|split].
    + apply get_props_nth. eapply nth_error_upd_eq. apply get_props_nth. exact G1.
    + eapply nth_error_upd_eq; eauto.
    + simpl. eapply leaf_ends; eauto.
Qed.

Lemma loop_map_good n' m : forall i s r s', maps_keyed (heap s) ->
  loop_props n' m i (map_body m) s = (r, s') ->
  moved s s'
  /\ (r = Ok tt -> exists l, get_props (heap s') m = Some l
        /\ forall j e, i <= j -> nth_error l j = Some e -> ends (heap s') (p_base (snd e))).
Proof.
  induction n' as [|n' IH]; intros i s r s' K H.
  { injection H as <- <-. split; [now apply moved_refl|discriminate]. }
  cbn [loop_props] in H. apply rd_run in H. destruct H as [(l & G & H)|[-> ->]]; [|split; [now apply moved_refl|discriminate]].
  destruct (nth_error l i) as [[k p]|] eqn:N.
  - apply bind_run in H. destruct H as [([] & s1 & H1 & H2)|(U & q & H1 & _)].
    2:{ destruct (map_body_good m l i k p s _ _ K G N H1) as [M1 _]. split; [exact M1|].
        intros ->. exfalso. now apply (U tt). }
    destruct (map_body_good m l i k p s _ _ K G N H1) as [M1 E1].
    destruct (E1 eq_refl) as (l1 & e & G1 & N1 & En). clear E1.
    pose proof M1 as [K1 _]. destruct (IH (S i) s1 _ _ K1 H2) as [M2 E2].
    split; [eapply moved_trans; eauto|]. intros Ok2. destruct (E2 Ok2) as (l2 & G2 & All).
    exists l2. split; [exact G2|]. intros j e2 L N2. destruct (Nat.eq_dec i j) as [<-|Ne].
    + destruct M2 as (_ & q & R). pose proof R as (_ & B & _). destruct (B _ _ G1) as (l3 & G3 & F).
      assert (l3 = l2) by congruence. subst l3. destruct (F2_nth _ _ _ _ _ F N1) as (e3 & N3 & (_ & _ & _ & X)).
      assert (e3 = e2) by congruence. subst e3. eapply ends_chain; [exact X|]. eapply ends_redir; eauto.
    + apply (All j); auto. lia.
  - injection H as <- <-. split; [now apply moved_refl|]. intros _. exists l. split; auto.
    intros j e L Nj. exfalso. apply nth_error_None in N. apply nth_error_lt in Nj. lia.
Qed.

Lemma mark_map_good m s r s' : maps_keyed (heap s) -> mark_map n rec m s = (r, s') ->
  moved s s'
  /\ (r = Ok tt -> exists l, get_props (heap s') m = Some l
        /\ forall k p, In (k, p) l -> ends (heap s') (p_base p)).
Proof.
  intros K H. destruct (loop_map_good n m 0 s _ _ K H) as [A B]. split; [exact A|].
  intros E. destruct (B E) as (l & G & W). exists l. split; [exact G|]. intros k p I.
  apply In_nth_error in I. destruct I as [j I]. apply (W j (k, p)); [lia|exact I].
Qed.

Lemma mark_optmap_good o s r s' : maps_keyed (heap s) -> mark_optmap n rec o s = (r, s') ->
  moved s s'
  /\ (r = Ok tt -> exists l, props_of (heap s') o l
        /\ forall k p, In (k, p) l -> ends (heap s') (p_base p)).
Proof.
  intros K H. destruct o as [m|]; simpl in H.
  - destruct (mark_map_good m s _ _ K H) as [A B]. split; [exact A|].
    intros E. destruct (B E) as (l & G & W). exists l. split; [|exact W]. right. eauto.
  - injection H as <- <-. split; [now apply moved_refl|]. intros _. exists []. split; [now left|]. intros ? ? [].
Qed.

Definition slice_body sl : nat -> addr -> M unit := fun i item =>
  (r <- rec item ;; match r with Some x => slice_set sl i x | None => ret tt end)%M.

Lemma slice_body_good sl l i a s r s' :
  maps_keyed (heap s) -> get_slice (heap s) sl = Some l -> nth_error l i = Some a ->
  slice_body sl i a s = (r, s') ->
  moved s s'
  /\ (r = Ok tt -> exists l1 e, get_slice (heap s') sl = Some l1
        /\ nth_error l1 i = Some e /\ ends (heap s') e).
Proof.
  intros K G N H. apply bind_run in H. destruct H as [(o & s1 & H1 & H)|(U & q & H1 & _)].
  2:{ destruct (Hrec _ _ _ _ K H1) as [Mv _]. split; [exact Mv|]. intros ->. exfalso. now apply (U tt). }
  destruct (Hrec _ _ _ _ K H1) as [(K1 & j & R) Oc].
  pose proof R as (_ & _ & B & _). destruct (B _ _ G) as (l1 & G1 & F).
  destruct (F2_nth _ _ _ _ _ F N) as (e & N1 & X).
  destruct o as [x|]; simpl in Oc.
  2:{ injection H as <- <-. split; [split; eauto|]. intros _. exists l1, e. repeat split; auto.
      eapply ends_chain; [exact X|exact Oc]. }
  unfold slice_set, bind, rd, write in H. rewrite G1, N1 in H. injection H as <- <-.
  assert (KL : keeps_leaves (heap s1) (upd sl (CSlice (upd i x l1)) (heap s1))).
  { eapply keeps_write_slice; eauto. }
  pose proof (keeps_leaf _ _ _ _ KL Oc) as Lf.
  split.
  - split; simpl.
    + now apply keyed_write_slice.
    + exists (S j). apply redir_write with (k := j) (c0 := CSlice l); auto.
      * now apply get_slice_nth.
      * simpl. eapply F2_upd; [|exact N|].
        -- eapply F2_mono; [|exact F]. intros y z Y. apply rchain_le with (n := j); [lia|].
           exact (rchain_mono _ _ _ _ _ KL Y).
        -- apply rchain_le with (n := 1); [lia|]. now apply leaf_chain.
  - intros _. exists (upd i x l1), x. split; [|split].
    + apply get_slice_nth. eapply nth_error_upd_eq. apply get_slice_nth. exact G1.
    + eapply nth_error_upd_eq; eauto.
    + eapply leaf_ends; eauto.
Qed.

Lemma loop_slice_good n' sl : forall i s r s', maps_keyed (heap s) ->
  loop_slice n' sl i (slice_body sl) s = (r, s') ->
  moved s s'
  /\ (r = Ok tt -> exists l, get_slice (heap s') sl = Some l
        /\ forall j e, i <= j -> nth_error l j = Some e -> ends (heap s') e).
Proof.
  induction n' as [|n' IH]; intros i s r s' K H.
  { injection H as <- <-. split; [now apply moved_refl|discriminate]. }
  cbn [loop_slice] in H. apply rd_run in H. destruct H as [(l & G & H)|[-> ->]]; [|split; [now apply moved_refl|discriminate]].
  destruct (nth_error l i) as [a|] eqn:N.
  - apply bind_run in H. destruct H as [([] & s1 & H1 & H2)|(U & q & H1 & _)].
    2:{ destruct (slice_body_good sl l i a s _ _ K G N H1) as [M1 _]. split; [exact M1|].
        intros ->. exfalso. now apply (U tt). }
    destruct (slice_body_good sl l i a s _ _ K G N H1) as [M1 E1].
    destruct (E1 eq_refl) as (l1 & e & G1 & N1 & En). clear E1.
    pose proof M1 as [K1 _]. destruct (IH (S i) s1 _ _ K1 H2) as [M2 E2].
    split; [eapply moved_trans; eauto|]. intros Ok2. destruct (E2 Ok2) as (l2 & G2 & All).
    exists l2. split; [exact G2|]. intros j e2 L N2. destruct (Nat.eq_dec i j) as [<-|Ne].
    + destruct M2 as (_ & q & R). pose proof R as (_ & _ & B & _). destruct (B _ _ G1) as (l3 & G3 & F).
      assert (l3 = l2) by congruence. subst l3. destruct (F2_nth _ _ _ _ _ F N1) as (e3 & N3 & X).
      assert (e3 = e2) by congruence. subst e3. eapply ends_chain; [exact X|]. eapply ends_redir; eauto.
    + apply (All j); auto. lia.
  - injection H as <- <-. split; [now apply moved_refl|]. intros _. exists l. split; auto.
    intros j e L Nj. exfalso. apply nth_error_None in N. apply nth_error_lt in Nj. lia.
Qed.

(** The components of the shape at [a] end. *)
Definition shape_ends (h : list cell) (a : addr) : Prop :=
  exists b, get_base h a = Some b
    /\ (forall sh, b_shape b = Some sh -> norec sh -> conts h sh)
    /\ (forall sh c, b_shape b = Some sh -> norec sh -> child h sh c -> ends h c).

Lemma shape_ends_redir k h h' a : redir k h h' -> shape_ends h a -> shape_ends h' a.
Proof.
  intros R (b & G & C & D). pose proof R as (A & _). destruct (A _ _ G) as (b' & G' & E).
  assert (S : forall sh', b_shape b' = Some sh' -> exists sh, b_shape b = Some sh /\ srel h' k (Some sh) (Some sh')).
  { intros sh' X. destruct E as [_ E]. rewrite X in E.
    destruct (b_shape b) as [sh|]; [eauto|]. destruct E as [E|(f & i & i' & E & _)]; discriminate. }
  exists b'. split; [exact G'|]. split.
  - intros sh' X N. destruct (S _ X) as (sh & Y & Z). destruct (shape_redir _ _ _ _ _ R Z N) as [N' K].
    apply K. eauto.
  - intros sh' c' X N Hc. destruct (S _ X) as (sh & Y & Z). destruct (shape_redir _ _ _ _ _ R Z N) as [N' K].
    destruct (K (C _ Y N')) as [_ K']. destruct (K' _ Hc) as (c & Hc' & Hr).
    eapply ends_chain; [exact Hr|]. eapply ends_redir; eauto.
Qed.

Lemma mark_shape_good a s r s' : maps_keyed (heap s) -> mark_shape n rec a s = (r, s') ->
  moved s s' /\ (r = Ok tt -> shape_ends (heap s') a).
Proof.
  intros K H. apply rd_run in H. destruct H as [(b & G & H)|[-> ->]]; [|split; [now apply moved_refl|discriminate]].
  assert (Triv : (forall sh, b_shape b = Some sh -> norec sh -> conts (heap s) sh
                   /\ forall c, ~ child (heap s) sh c) -> (r, s') = (Ok tt, s) ->
            moved s s' /\ (r = Ok tt -> shape_ends (heap s') a)).
  { intros T [= -> ->]. split; [now apply moved_refl|]. intros _. exists b. split; auto. split.
    - intros sh E N. now apply T.
    - intros sh c E N Hc. exfalso. destruct (T _ E N) as [_ T']. now apply (T' c). }
  destruct (b_shape b) as [sh|] eqn:Sh.
  2:{ apply Triv; [discriminate|now rewrite <- H]. }
  destruct sh;
    try (apply Triv; [intros sh [= <-] _; split; [exact I|intros c Hc; now inversion Hc]|now rewrite <- H]).
  - destruct (a_items f) as [i|] eqn:Ei.
    2:{ apply Triv; [|now rewrite <- H]. intros sh [= <-] _. split; [exact I|]. intros c Hc. inversion Hc; congruence. }
    apply bind_run in H. destruct H as [(o & s1 & H1 & H)|(U & q & H1 & _)].
    2:{ destruct (Hrec _ _ _ _ K H1) as [Mv _]. split; [exact Mv|]. intros ->. exfalso. now apply (U tt). }
    destruct (Hrec _ _ _ _ K H1) as [(K1 & j & R) Oc].
    pose proof R as (A & _). destruct (A _ _ G) as (b1 & G1 & [E1 S1]).
    assert (S2 : exists i1, b_shape b1 = Some (SArray (set_items (Some i1) f)) /\ rchain (heap s1) j i1 i).
    { rewrite Sh in S1. destruct S1 as [S1|(g & i0 & i1 & X1 & X2 & X3 & X4)].
      - exists i. split; [|constructor]. rewrite S1. destruct f as [it mn mx un]; simpl in Ei; subst it. reflexivity.
      - injection X1 as <-. exists i1. assert (i0 = i) by congruence. subst. auto. }
    destruct S2 as (i1 & S2 & Ch).
    destruct o as [x|]; simpl in Oc.
    2:{ injection H as <- <-. split; [split; eauto|]. intros _. exists b1. split; auto. rewrite S2. split.
        - intros sh [= <-] _. exact I.
        - intros sh c [= <-] _ Hc. inversion Hc as [f0 i0 Hi| | | |]; subst. simpl in Hi. injection Hi as <-.
          eapply ends_chain; eauto. }
    unfold upd_arr, bind, rd, write in H. rewrite G1, S2 in H. injection H as <- <-.
    set (b2 := set_shape (Some (SArray (set_items (Some x) (set_items (Some i1) f)))) b1).
    assert (KL : keeps_leaves (heap s1) (upd a (CBase b2) (heap s1))).
    { eapply keeps_write_base; eauto. intros y Y. congruence. }
    pose proof (keeps_leaf _ _ _ _ KL Oc) as Lf.
    split.
    + split; simpl; [now apply keyed_write_base|]. exists (S j).
      apply redir_write with (k := j) (c0 := CBase b); auto; [now apply get_base_nth|].
      simpl. split.
      * unfold b2. rewrite E1. reflexivity.
      * right. exists f, i, x. rewrite Sh. repeat split; auto.
        apply rchain_le with (n := 1); [lia|]. now apply leaf_chain.
    + intros _. exists b2. split; [|split].
      * apply get_base_nth. simpl. eapply nth_error_upd_eq. apply get_base_nth. exact G1.
      * intros sh [= <-] _. exact I.
      * intros sh c [= <-] _ Hc. inversion Hc as [f0 i0 Hi| | | |]; subst. simpl in Hi. injection Hi as <-.
        eapply leaf_ends; eauto.
  - apply bind_run in H. destruct H as [([] & s1 & H1 & H)|(U & q & H1 & _)].
    2:{ destruct (mark_optmap_good _ _ _ _ K H1) as [Mv _]. split; [exact Mv|]. intros ->. exfalso. now apply (U tt). }
    destruct (mark_optmap_good _ _ _ _ K H1) as [M1 E1]. destruct (E1 eq_refl) as (l1 & P1 & A1).
    pose proof M1 as [K1 [j1 R1]].
    destruct (mark_optmap_good _ _ _ _ K1 H) as [M2 E2]. split; [eapply moved_trans; eauto|].
    intros Ok2. destruct (E2 Ok2) as (l2 & P2 & A2). destruct M2 as [K2 [j2 R2]].
    pose proof R1 as (B1 & _). destruct (B1 _ _ G) as (b1 & G1 & [_ S1]).
    pose proof R2 as (B2 & _). destruct (B2 _ _ G1) as (b2 & G2 & [_ S2]).
    assert (Eb : b_shape b2 = Some (SObject f)).
    { rewrite Sh in S1. destruct S1 as [S1|(g & i0 & i1 & X1 & _)]; [|discriminate].
      rewrite S1 in S2. destruct S2 as [S2|(g & i0 & i1 & X1 & _)]; [exact S2|discriminate]. }
    destruct (props_of_redir_ex _ _ _ _ _ R2 P1) as (l1' & P1').
    exists b2. split; auto. rewrite Eb. split.
    + intros sh [= <-] _. simpl. eauto.
    + intros sh c [= <-] _ Hc. inversion Hc as [|f0 ps k p Hp Hi|f0 ps k p Hp Hi| |]; subst.
      * pose proof (props_of_redir _ _ _ _ _ _ R2 P1 Hp) as F.
        destruct (F2_in_r _ _ _ _ F Hi) as ([k1 q] & I & (_ & _ & _ & X)). simpl in X.
        eapply ends_chain; [exact X|]. eapply ends_redir; eauto.
      * rewrite (props_of_fun _ _ _ _ Hp P2) in Hi. eauto.
  - destruct (loop_slice_good n anyof 0 s _ _ K H) as [M1 E1]. split; [exact M1|].
    intros Ok1. destruct (E1 Ok1) as (l & Gl & Al). destruct M1 as [K1 [j R]].
    pose proof R as (B1 & _). destruct (B1 _ _ G) as (b1 & G1 & [_ S1]).
    assert (Eb : b_shape b1 = Some (SUnion anyof e)).
    { rewrite Sh in S1. destruct S1 as [S1|(g & i0 & i1 & X1 & _)]; [exact S1|discriminate]. }
    exists b1. split; auto. rewrite Eb. split.
    + intros sh [= <-] _. simpl. eauto.
    + intros sh c [= <-] _ Hc. inversion Hc as [| | |sl0 e0 l0 m0 Hl Hi|]; subst.
      assert (l0 = l) by congruence. subst. apply In_nth_error in Hi. destruct Hi as [q Hi]. apply (Al q); [lia|auto].
  - injection H as <- <-. split; [now apply moved_refl|]. intros _. exists b. split; auto. rewrite Sh. split.
    + intros sh [= <-] N. exfalso. now apply (N head).
    + intros sh c [= <-] N. exfalso. now apply (N head).
Qed.
End Parts.

Lemma make_base_run nm loc s : exists nb s1, make_base nm loc s = (Ok (List.length (heap s) + 3), s1)
  /\ heap s1 = heap s ++ [CFacets []; CProps []; CSlice []; CBase nb]
  /\ b_fdefs nb = List.length (heap s) + 1.
Proof.
  unfold make_base, gen_id, alloc, put_shape, ret, bind. simpl. do 2 eexists. split; [|split].
  - f_equal. f_equal. repeat rewrite app_length. simpl. lia.
  - simpl. repeat rewrite <- app_assoc. reflexivity.
  - simpl. rewrite app_length. reflexivity.
Qed.

Lemma make_recursive_good a s r s' : maps_keyed (heap s) -> make_recursive a s = (r, s') ->
  moved s s' /\ match r with Ok x => leaf (heap s') x a | _ => True end.
Proof.
  intros K H. apply rd_run in H. destruct H as [(hb & G & H)|[-> ->]]; [|split; [now apply moved_refl|exact I]].
  destruct (make_base_run (b_name hb) (b_loc hb) s) as (nb & s1 & E1 & Eh & Ef).
  rewrite (bind_ok _ _ _ _ _ E1) in H.
  set (x := List.length (heap s) + 3) in *.
  assert (Gx : get_base (heap s1) x = Some nb).
  { apply get_base_nth. rewrite Eh, nth_error_app2 by (unfold x; lia).
    replace (x - List.length (heap s)) with 3 by (unfold x; lia). reflexivity. }
  unfold upd_base, bind, rd, write, ret in H. rewrite Gx in H.
  set (nb' := Base _ _ _ "recursive" _ _ _ _ _ _ _ _ _ _ _ _ _ _ _) in *.
  injection H as <- <-.
  assert (Hh : upd x (CBase nb') (heap s1) = heap s ++ [CFacets []; CProps []; CSlice []; CBase nb']).
  { rewrite Eh, upd_app_r by (unfold x; lia). f_equal.
    replace (x - List.length (heap s)) with 3 by (unfold x; lia). reflexivity. }
  simpl. split; [split|]; simpl; rewrite Hh.
  - intros m l Gm. apply get_props_nth in Gm.
    destruct (Nat.lt_ge_cases m (List.length (heap s))) as [L|L].
    + rewrite nth_error_app1 in Gm by auto. apply (K m). now apply get_props_nth.
    + rewrite nth_error_app2 in Gm by auto. destruct (m - List.length (heap s)) as [|[|[|[|q]]]]; simpl in Gm; try discriminate.
      * injection Gm as <-. constructor.
      * destruct q; discriminate.
  - exists 0. apply redir_same_cells.
    + intros q c N. rewrite nth_error_app1; auto. eapply nth_error_lt; eauto.
    + intros m c L Gm. apply nth_error_None in L.
      rewrite nth_error_app2 in Gm by auto. destruct (m - List.length (heap s)) as [|[|[|[|q]]]]; simpl in Gm;
        try (injection Gm as <-; simpl; auto); [|destruct q; discriminate].
      split; [eauto|]. split; [|reflexivity]. rewrite Ef. apply get_props_nth. rewrite nth_error_app2 by lia.
      replace (List.length (heap s) + 1 - List.length (heap s)) with 1 by lia. reflexivity.
  - exists nb'. split; [|split].
    + apply get_base_nth. rewrite nth_error_app2 by (unfold x; lia).
      replace (x - List.length (heap s)) with 3 by (unfold x; lia). reflexivity.
    + reflexivity.
    + simpl. rewrite Ef. apply get_props_nth. rewrite nth_error_app2 by lia.
      replace (List.length (heap s) + 1 - List.length (heap s)) with 1 by lia. reflexivity.
Qed.

Lemma set_visited_good a v s r s' : maps_keyed (heap s) -> upd_base a (set_visited v) s = (r, s') -> moved s s'.
Proof.
  intros K H. apply rd_run in H. destruct H as [(b & G & H)|[-> ->]]; [|now apply moved_refl].
  injection H as <- <-. split; simpl; [now apply keyed_write_base|]. exists 0.
  apply redir_write with (k := 0) (c0 := CBase b); auto using redir_refl.
  - now apply get_base_nth.
  - eapply keeps_write_base; eauto.
  - split; [destruct b; reflexivity|now left].
Qed.

Lemma mark_good n : good_rec (mark n).
Proof.
  induction n as [|n IH]; intros a s r s' K H.
  { injection H as <- <-. split; [now apply moved_refl|exact I]. }
  cbn [mark] in H. apply rd_run in H. destruct H as [(b & G & H)|[-> ->]]; [|split; [now apply moved_refl|exact I]].
  destruct (negb (b_unwrapped b)) eqn:Un; [injection H as <- <-; split; [now apply moved_refl|exact I]|].
  apply negb_false_iff in Un.
  destruct (b_visited b).
  { apply bind_run in H. destruct H as [(x & s1 & H1 & H)|(U & q & H1 & _)].
    - injection H as <- <-. exact (make_recursive_good _ _ _ _ K H1).
    - destruct (make_recursive_good _ _ _ _ K H1) as [Mv _]. split; [exact Mv|].
      destruct r; [exfalso; eapply U; reflexivity|exact I|exact I|exact I]. }
  assert (St : forall q : res (option addr), unok q -> forall h, outcome h a q).
  { intros q U h. destruct q; [exfalso; eapply U; reflexivity|exact I|exact I|exact I]. }
  apply bind_run in H. destruct H as [([] & s1 & H1 & H)|(U & q & H1 & _)].
  2:{ split; [eapply set_visited_good; eauto|auto]. }
  pose proof (set_visited_good _ _ _ _ _ K H1) as M1. pose proof M1 as [K1 _].
  apply bind_run in H. destruct H as [([] & s2 & H2 & H)|(U & q & H2 & _)].
  2:{ destruct (mark_shape_good n _ IH _ _ _ _ K1 H2) as [M2 _]. split; [eapply moved_trans; eauto|auto]. }
  destruct (mark_shape_good n _ IH _ _ _ _ K1 H2) as [M2 E2]. specialize (E2 eq_refl). pose proof M2 as [K2 _].
  apply bind_run in H. destruct H as [([] & s3 & H3 & H)|(U & q & H3 & _)].
  2:{ pose proof (set_visited_good _ _ _ _ _ K2 H3). split; [eauto using moved_trans|auto]. }
  pose proof (set_visited_good _ _ _ _ _ K2 H3) as M3. pose proof M3 as [K3 _].
  apply rd_run in H. destruct H as [(b' & G' & H)|[-> ->]].
  2:{ split; [eauto using moved_trans|exact I]. }
  apply bind_run in H. destruct H as [([] & s4 & H4 & H)|(U & q & H4 & _)].
  2:{ destruct (mark_map_good n _ IH _ _ _ _ K3 H4) as [M4 _]. split; [eauto using moved_trans|auto]. }
  destruct (mark_map_good n _ IH _ _ _ _ K3 H4) as [M4 E4]. destruct (E4 eq_refl) as (l & Gl & Al).
  injection H as <- <-. split; [eauto using moved_trans|]. simpl.
  pose proof (moved_trans _ _ _ M1 (moved_trans _ _ _ M2 (moved_trans _ _ _ M3 M4))) as (_ & j0 & (R0 & _)).
  destruct (R0 _ _ G) as (b0 & G0 & Rb0).
  pose proof (moved_trans _ _ _ M3 M4) as (_ & j & R).
  destruct (shape_ends_redir _ _ _ _ R E2) as (b4 & G4 & C4 & D4).
  destruct M4 as (_ & j4 & R4). pose proof R4 as (B & _). destruct (B _ _ G') as (b4' & G4' & Rb).
  assert (b4' = b4) by congruence. subst b4'. assert (b0 = b4) by congruence. subst b0.
  econstructor; [exact G4|rewrite (brel_fdefs _ _ _ _ Rb); exact Gl|exact Al|exact C4|exact D4|].
  intros _. rewrite (brel_unwrapped _ _ _ _ Rb0). exact Un.
Qed.

(** * Termination *)

Definition counted (c : cell) : bool :=
  match c with
  | CBase b => negb (b_visited b) && match b_shape b with Some (SRec _) => false | _ => true end
  | _ => false
  end.
Definition unv (h : list cell) : nat := List.length (filter counted h).

(** The walk's flags are as they were. *)
Definition vis (h h' : list cell) : Prop :=
  forall a b, get_base h a = Some b -> exists b', get_base h' a = Some b' /\ b_visited b' = b_visited b.

Lemma vis_refl h : vis h h.
Proof. intros a b G. eauto. Qed.
Lemma vis_trans h1 h2 h3 : vis h1 h2 -> vis h2 h3 -> vis h1 h3.
Proof.
  intros A B a b G. destruct (A _ _ G) as (b1 & G1 & E1). destruct (B _ _ G1) as (b2 & G2 & E2).
  exists b2. split; congruence.
Qed.

Lemma unv_le h : forall h',
  (forall i c', nth_error h' i = Some c' -> counted c' = true ->
     exists c, nth_error h i = Some c /\ counted c = true) -> unv h' <= unv h.
Proof.
  unfold unv. induction h as [|c h IH]; intros h' H.
  - assert (filter counted h' = []) as ->; [|simpl; lia].
    clear -H. revert H. induction h' as [|c' h' IH]; intros H; [reflexivity|]. simpl.
    destruct (counted c') eqn:E.
    + destruct (H 0 c' eq_refl E) as (c & N & _). discriminate.
    + apply IH. intros i c0 N C. destruct (H (S i) c0 N C) as (c & X & _). destruct i; discriminate.
  - destruct h' as [|c' h']; [simpl; lia|]. simpl.
    assert (L : List.length (filter counted h') <= List.length (filter counted h)).
    { apply IH. intros i c0 N C. exact (H (S i) c0 N C). }
    destruct (counted c') eqn:E.
    + destruct (H 0 c' eq_refl E) as (c0 & N & C). simpl in N. injection N as <-. rewrite C. simpl. lia.
    + destruct (counted c); simpl; lia.
Qed.

Lemma unv_redir k h h' : redir k h h' -> vis h h' -> unv h' <= unv h.
Proof.
  intros R V. apply unv_le. intros i c' N C. rewrite redir_cells in R. destruct R as [R NL].
  destruct (nth_error h i) as [c|] eqn:E.
  - exists c. split; auto. destruct (R _ _ E) as (c1 & N1 & Cr). assert (c1 = c') by congruence. subst c1.
    destruct c' as [b'| | | |]; simpl in C; try discriminate. destruct c as [b| | | |]; simpl in Cr; try contradiction.
    destruct (V i b) as (b1 & G1 & Ev); [now apply get_base_nth|].
    apply get_base_nth in G1. assert (b1 = b') by congruence. subst b1. simpl.
    apply andb_true_iff in C. destruct C as [C1 C2]. rewrite Ev in C1. rewrite C1. simpl.
    destruct Cr as [_ [S|(f & j & j' & X1 & X2 & X3 & _)]].
    + now rewrite S in C2.
    + now rewrite X1.
  - exfalso. specialize (NL _ _ E N). destruct c' as [b'| | | |]; simpl in *; try discriminate.
    destruct NL as [[y Y] _]. rewrite Y in C. rewrite andb_false_r in C. discriminate.
Qed.

Lemma unv_set_visited h a b : get_base h a = Some b -> b_visited b = false ->
  (forall y, b_shape b <> Some (SRec y)) ->
  unv h = S (unv (upd a (CBase (set_visited true b)) h)).
Proof.
  unfold unv. intros G V N. apply get_base_nth in G. revert a G.
  induction h as [|c h IH]; intros [|a] G; simpl in *; try discriminate.
  - injection G as ->. simpl. rewrite V. simpl.
    destruct (b_shape b) as [[]|] eqn:E; try reflexivity. exfalso. eapply N; reflexivity.
  - destruct (counted c); simpl; rewrite (IH _ G); reflexivity.
Qed.

Definition lens (L : nat) (h : list cell) : Prop :=
  (forall m l, get_props h m = Some l -> List.length l <= L)
  /\ (forall m l, get_slice h m = Some l -> List.length l <= L).

Definition fdefs_ok (h : list cell) : Prop :=
  forall a b, get_base h a = Some b -> exists m, get_props h (b_fdefs b) = Some m.

Record inv (L : nat) (h : list cell) : Prop := {
  inv_flat : facets_flat h;
  inv_fdefs : fdefs_ok h;
  inv_keyed : maps_keyed h;
  inv_lens : lens L h
}.

Lemma inv_redir L k h h' : inv L h -> redir k h h' -> maps_keyed h' -> inv L h'.
Proof.
  intros [Fl Fd _ [Ls1 Ls2]] R K'. pose proof (redir_keeps _ _ _ R) as [KL1 KL2].
  pose proof R as (A & B & C & _). pose proof R as RC. rewrite redir_cells in RC. destruct RC as [RC NL].
  constructor; auto.
  - intros a b' m' k0 p' q' G' F' I' Q'.
    destruct (get_base h a) as [b|] eqn:G.
    + destruct (A _ _ G) as (b1 & G1 & Rb). assert (b1 = b') by congruence. subst b1.
      rewrite (brel_fdefs _ _ _ _ Rb) in F'. destruct (Fd _ _ G) as [m F].
      destruct (B _ _ F) as (m1 & F1 & FF). assert (m1 = m') by congruence. subst m1.
      destruct (F2_in_r _ _ _ _ FF I') as ([k1 p] & I & (_ & _ & _ & X)). simpl in X.
      inversion X as [|n0 x0 b0 y0 z0 X1 X2 X3 X4]; subst.
      * match goal with E : p_base p' = p_base p |- _ => rewrite E in Q' end.
        destruct (get_base h (p_base p)) as [q|] eqn:Q.
        -- destruct (A _ _ Q) as (q1 & Q1 & Rq). assert (q1 = q') by congruence. subst q1.
           rewrite (brel_fdefs _ _ _ _ Rq). apply KL2. exact (Fl _ _ _ _ _ _ G F I Q).
        -- destruct (nth_error h (p_base p)) as [c|] eqn:Nc.
           ++ exfalso. destruct (RC _ _ Nc) as (c' & Nc' & Cr). apply get_base_nth in Q'.
              assert (E : c' = CBase q') by congruence. subst c'. destruct c; simpl in Cr; try contradiction.
              apply get_base_nth in Nc. congruence.
           ++ apply get_base_nth in Q'. specialize (NL _ _ Nc Q'). apply NL.
      * assert (b0 = q') by congruence. subst b0. exact X3.
    + exfalso. destruct (nth_error h a) as [c|] eqn:Nc.
      * destruct (RC _ _ Nc) as (c' & Nc' & Cr). apply get_base_nth in G'.
        assert (E : c' = CBase b') by congruence. subst c'. destruct c; simpl in Cr; try contradiction.
        apply get_base_nth in Nc. congruence.
      * apply get_base_nth in G'. specialize (NL _ _ Nc G'). destruct NL as (_ & NL & _). rewrite NL in F'.
        injection F' as <-. destruct I'.
  - intros a b' G'. destruct (nth_error h a) as [c|] eqn:Nc.
    + destruct (RC _ _ Nc) as (c' & Nc' & Cr). apply get_base_nth in G'.
      assert (E : c' = CBase b') by congruence. subst c'. destruct c as [b| | | |]; simpl in Cr; try contradiction.
      apply get_base_nth in Nc. destruct (Fd _ _ Nc) as [m F]. destruct (B _ _ F) as (m1 & F1 & _).
      rewrite (brel_fdefs _ _ _ _ Cr). eauto.
    + apply get_base_nth in G'. specialize (NL _ _ Nc G'). destruct NL as (_ & NL & _). eauto.
  - split.
    + intros m l' G'. destruct (nth_error h m) as [c|] eqn:Nc.
      * destruct (RC _ _ Nc) as (c' & Nc' & Cr). apply get_props_nth in G'.
        assert (E : c' = CProps l') by congruence. subst c'. destruct c as [|l| | |]; simpl in Cr; try contradiction.
        apply get_props_nth in Nc. rewrite <- (Forall2_len _ _ _ Cr). eauto.
      * apply get_props_nth in G'. specialize (NL _ _ Nc G'). simpl in NL. subst. simpl. lia.
    + intros m l' G'. destruct (nth_error h m) as [c|] eqn:Nc.
      * destruct (RC _ _ Nc) as (c' & Nc' & Cr). apply get_slice_nth in G'.
        assert (E : c' = CSlice l') by congruence. subst c'. destruct c as [| | |l|]; simpl in Cr; try contradiction.
        apply get_slice_nth in Nc. rewrite <- (Forall2_len _ _ _ Cr). eauto.
      * apply get_slice_nth in G'. specialize (NL _ _ Nc G'). simpl in NL. subst. simpl. lia.
Qed.

(** States met while a call is in progress: the invariant holds and no more
    than [u] shapes are left to visit. *)
Definition ready (L u : nat) (s : st) : Prop := inv L (heap s) /\ unv (heap s) <= u.

Lemma ready_moved L u s s' : ready L u s -> moved s s' -> vis (heap s) (heap s') -> ready L u s'.
Proof.
  intros [I U] (K & k & R) V. split; [eapply inv_redir; eauto|].
  pose proof (unv_redir _ _ _ R V). lia.
Qed.

(** A call on [a] in [s] returns, and resets the flags if it succeeds. *)
Definition returns_at {A} (m : M A) (s : st) : Prop :=
  forall r s', m s = (r, s') -> r <> OutOfFuel /\ (forall o, r = Ok o -> vis (heap s) (heap s')).

Section TermParts.
Variables (rec : addr -> M (option addr)) (L u : nat).
Hypothesis Hgood : good_rec rec.

Lemma props_set_vis m k p s r s' : props_set m k p s = (r, s') -> r <> OutOfFuel /\ vis (heap s) (heap s').
Proof.
  intros H. apply rd_run in H. destruct H as [(l & G & H)|[-> ->]]; [|split; [discriminate|apply vis_refl]].
  injection H as <- <-. split; [discriminate|]. intros a b Gb. exists b. split; auto. simpl.
  apply get_base_nth in Gb. apply get_props_nth in G. apply get_base_nth. rewrite nth_error_upd_neq; auto. intros ->. congruence.
Qed.
Lemma slice_set_vis m k p s r s' : slice_set m k p s = (r, s') -> r <> OutOfFuel /\ vis (heap s) (heap s').
Proof.
  intros H. apply rd_run in H. destruct H as [(l & G & H)|[-> ->]]; [|split; [discriminate|apply vis_refl]].
  destruct (nth_error l k); [|injection H as <- <-; split; [discriminate|apply vis_refl]].
  injection H as <- <-. split; [discriminate|]. intros z b Gb. exists b. split; auto. simpl.
  apply get_base_nth in Gb. apply get_slice_nth in G. apply get_base_nth. rewrite nth_error_upd_neq; auto. intros ->. congruence.
Qed.
Lemma upd_arr_vis a f s r s' : upd_arr a f s = (r, s') -> r <> OutOfFuel /\ vis (heap s) (heap s').
Proof.
  intros H. apply rd_run in H. destruct H as [(b & G & H)|[-> ->]]; [|split; [discriminate|apply vis_refl]].
  destruct (b_shape b) as [[]|]; try (injection H as <- <-; split; [discriminate|apply vis_refl]).
  injection H as <- <-. split; [discriminate|]. intros x c Gb. simpl. destruct (Nat.eq_dec a x) as [<-|N].
  - eexists. split; [apply get_base_nth; eapply nth_error_upd_eq; apply get_base_nth; eauto|].
    assert (c = b) by congruence. subst. reflexivity.
  - exists c. split; auto. apply get_base_nth. rewrite nth_error_upd_neq; auto. now apply get_base_nth.
Qed.

Lemma map_body_returns m k p s : returns_at (rec (p_base p)) s -> returns_at (map_body rec m k p) s.
Proof.
  intros R r s' H. apply bind_run in H. destruct H as [(o & s1 & H1 & H)|(U & q & H1 & _ & F)].
  - destruct (R _ _ H1) as [_ V]. specialize (V _ eq_refl). destruct o as [x|].
    + destruct (props_set_vis _ _ _ _ _ _ H) as [A B]. split; auto. intros _ _. eapply vis_trans; eauto.
    + injection H as <- <-. split; [discriminate|auto].
  - destruct (R _ _ H1) as [N _]. split; [auto|intros o ->; exfalso; eapply U; reflexivity].
Qed.

Lemma slice_body_returns sl i a s : returns_at (rec a) s -> returns_at (slice_body rec sl i a) s.
Proof.
  intros R r s' H. apply bind_run in H. destruct H as [(o & s1 & H1 & H)|(U & q & H1 & _ & F)].
  - destruct (R _ _ H1) as [_ V]. specialize (V _ eq_refl). destruct o as [x|].
    + destruct (slice_set_vis _ _ _ _ _ _ H) as [A B]. split; auto. intros _ _. eapply vis_trans; eauto.
    + injection H as <- <-. split; [discriminate|auto].
  - destruct (R _ _ H1) as [N _]. split; [auto|intros o ->; exfalso; eapply U; reflexivity].
Qed.

(** The invariant [Q] of the loop, kept by everything a successful call does. *)
Section Loop.
Variable Q : st -> Prop.
Hypothesis Q_ready : forall s, Q s -> ready L u s.
Hypothesis Q_moved : forall s s', Q s -> moved s s' -> vis (heap s) (heap s') -> Q s'.

Lemma loop_map_returns m :
  (forall s l k p, Q s -> get_props (heap s) m = Some l -> In (k, p) l -> returns_at (rec (p_base p)) s) ->
  forall n i s, Q s -> i <= L -> L < n + i -> returns_at (loop_props n m i (map_body rec m)) s.
Proof.
  intros Hb. induction n as [|n IH]; intros i s Hq Hi Hn r s' H; [lia|].
  cbn [loop_props] in H. apply rd_run in H.
  destruct H as [(l & G & H)|[-> ->]]; [|split; discriminate].
  destruct (nth_error l i) as [[k p]|] eqn:N.
  2:{ injection H as <- <-. split; [discriminate|]. intros. apply vis_refl. }
  pose proof (inv_lens _ _ (proj1 (Q_ready _ Hq))) as [Ls _]. specialize (Ls _ _ G).
  pose proof (nth_error_lt _ _ _ N).
  pose proof (map_body_returns m k p s (Hb _ _ _ _ Hq G (nth_error_In _ _ N))) as Rb.
  apply bind_run in H. destruct H as [([] & s1 & H1 & H)|(U & q & H1 & _ & F)].
  - destruct (Rb _ _ H1) as [_ V]. specialize (V _ eq_refl).
    destruct (map_body_good rec Hgood m l i k p s _ _ (inv_keyed _ _ (proj1 (Q_ready _ Hq))) G N H1) as [Mv _].
    pose proof (Q_moved _ _ Hq Mv V) as Q1.
    destruct (IH (S i) s1 Q1 ltac:(lia) ltac:(lia) _ _ H) as [A B]. split; [exact A|].
    intros o E. eapply vis_trans; eauto.
  - destruct (Rb _ _ H1) as [X _]. split; [auto|intros o ->; exfalso; eapply U; reflexivity].
Qed.

Lemma loop_slice_returns sl :
  (forall s l a, Q s -> get_slice (heap s) sl = Some l -> In a l -> returns_at (rec a) s) ->
  forall n i s, Q s -> i <= L -> L < n + i -> returns_at (loop_slice n sl i (slice_body rec sl)) s.
Proof.
  intros Hb. induction n as [|n IH]; intros i s Hq Hi Hn r s' H; [lia|].
  cbn [loop_slice] in H. apply rd_run in H.
  destruct H as [(l & G & H)|[-> ->]]; [|split; discriminate].
  destruct (nth_error l i) as [a|] eqn:N.
  2:{ injection H as <- <-. split; [discriminate|]. intros. apply vis_refl. }
  pose proof (inv_lens _ _ (proj1 (Q_ready _ Hq))) as [_ Ls]. specialize (Ls _ _ G).
  pose proof (nth_error_lt _ _ _ N).
  pose proof (slice_body_returns sl i a s (Hb _ _ _ Hq G (nth_error_In _ _ N))) as Rb.
  apply bind_run in H. destruct H as [([] & s1 & H1 & H)|(U & q & H1 & _ & F)].
  - destruct (Rb _ _ H1) as [_ V]. specialize (V _ eq_refl).
    destruct (slice_body_good rec Hgood sl l i a s _ _ (inv_keyed _ _ (proj1 (Q_ready _ Hq))) G N H1) as [Mv _].
    pose proof (Q_moved _ _ Hq Mv V) as Q1.
    destruct (IH (S i) s1 Q1 ltac:(lia) ltac:(lia) _ _ H) as [A B]. split; [exact A|].
    intros o E. eapply vis_trans; eauto.
  - destruct (Rb _ _ H1) as [X _]. split; [auto|intros o ->; exfalso; eapply U; reflexivity].
Qed.
End Loop.

(** Every call in a state with at most [u] shapes left returns. *)
Hypothesis Hcalls : forall s a, ready L u s -> returns_at (rec a) s.

Lemma mark_optmap_returns n o s : L < n -> ready L u s -> returns_at (mark_optmap n rec o) s.
Proof.
  intros Hn Hr. destruct o as [m|]; simpl.
  - apply (loop_map_returns (ready L u)); auto; try lia. intros; eapply ready_moved; eauto.
  - intros r s' [= <- <-]. split; [discriminate|]. intros. apply vis_refl.
Qed.

Lemma mark_shape_returns n a s : L < n -> ready L u s -> returns_at (mark_shape n rec a) s.
Proof.
  intros Hn Hr r s' H. apply rd_run in H. destruct H as [(b & G & H)|[-> ->]]; [|split; discriminate].
  assert (Triv : (r, s') = (Ok tt, s) -> r <> OutOfFuel /\ (forall o, r = Ok o -> vis (heap s) (heap s'))).
  { intros [= -> ->]. split; [discriminate|]. intros. apply vis_refl. }
  destruct (b_shape b) as [[]|]; try (apply Triv; now rewrite <- H).
  - destruct (a_items f) as [i|]; [|apply Triv; now rewrite <- H].
    apply bind_run in H. destruct H as [(o & s1 & H1 & H)|(U & q & H1 & _ & F)].
    + destruct (Hcalls _ _ Hr _ _ H1) as [_ V]. specialize (V _ eq_refl). destruct o as [x|].
      * destruct (upd_arr_vis _ _ _ _ _ H) as [A B]. split; auto. intros _ _. eapply vis_trans; eauto.
      * injection H as <- <-. split; [discriminate|auto].
    + destruct (Hcalls _ _ Hr _ _ H1) as [N _]. split; [auto|intros o ->; exfalso; eapply U; reflexivity].
  - apply bind_run in H. destruct H as [([] & s1 & H1 & H)|(U & q & H1 & _ & F)].
    + destruct (mark_optmap_returns n _ _ Hn Hr _ _ H1) as [_ V]. specialize (V _ eq_refl).
      destruct (mark_optmap_good n rec Hgood _ _ _ _ (inv_keyed _ _ (proj1 Hr)) H1) as [Mv _].
      pose proof (ready_moved _ _ _ _ Hr Mv V) as Hr1.
      destruct (mark_optmap_returns n _ _ Hn Hr1 _ _ H) as [A B]. split; [exact A|].
      intros o E. eapply vis_trans; eauto.
    + destruct (mark_optmap_returns n _ _ Hn Hr _ _ H1) as [N _]. split; [auto|intros o ->; exfalso; eapply U; reflexivity].
  - refine (loop_slice_returns (ready L u) _ _ anyof _ n 0 s Hr _ _ r s' H); auto; try lia.
    intros; eapply ready_moved; eauto.
Qed.
End TermParts.

Lemma set_visited_run a v s b : get_base (heap s) a = Some b ->
  upd_base a (set_visited v) s = (Ok tt, St (upd a (CBase (set_visited v b)) (heap s)) (st_shapes s) (st_nextid s)).
Proof. intros G. unfold upd_base, bind, rd, write. now rewrite G. Qed.

Lemma make_recursive_vis a s r s' : make_recursive a s = (r, s') ->
  r <> OutOfFuel /\ (forall o, r = Ok o -> vis (heap s) (heap s')).
Proof.
  intros H. apply rd_run in H. destruct H as [(hb & G & H)|[-> ->]]; [|split; discriminate].
  destruct (make_base_run (b_name hb) (b_loc hb) s) as (nb & s1 & E1 & Eh & Ef).
  rewrite (bind_ok _ _ _ _ _ E1) in H. unfold upd_base, bind, rd, write, ret in H.
  destruct (get_base (heap s1) (List.length (heap s) + 3)) as [b1|]; injection H as <- <-; (split; [discriminate|]); [|discriminate].
  intros o _ x b Gb. exists b. split; auto. simpl. apply get_base_nth in Gb. apply get_base_nth.
  pose proof (nth_error_lt _ _ _ Gb). rewrite nth_error_upd_neq by lia. rewrite Eh, nth_error_app1; auto.
Qed.

(** The fuel a call on [a] needs. *)
Definition enough (L n : nat) (h : list cell) (a : addr) : Prop :=
  forall b, get_base h a = Some b ->
    2 * unv h + L + 2 <= n /\ (get_props h (b_fdefs b) = Some [] \/ 2 * unv h + L + 3 <= n).

Lemma mark_returns L n : forall s a, inv L (heap s) -> 1 <= n -> enough L n (heap s) a -> returns_at (mark n a) s.
Proof.
  induction n as [|n IH]; intros s a Iv N1 En r s' H; [lia|]. clear N1.
  cbn [mark] in H. apply rd_run in H. destruct H as [(b & G & H)|[-> ->]]; [|split; discriminate].
  destruct (En _ G) as [En1 En2].
  destruct (negb (b_unwrapped b)); [injection H as <- <-; split; discriminate|].
  destruct (b_visited b) eqn:Vb.
  { apply bind_run in H. destruct H as [(x & s1 & H1 & H)|(U & q & H1 & _ & F)].
    - injection H as <- <-. destruct (make_recursive_vis _ _ _ _ H1) as [_ V]. split; [discriminate|]. eauto.
    - destruct (make_recursive_vis _ _ _ _ H1) as [X _]. split; [auto|intros o ->; exfalso; eapply U; reflexivity]. }
  rewrite (bind_ok _ _ _ _ _ (set_visited_run a true s b G)) in H.
  set (s1 := St _ _ _) in H.
  assert (M1 : moved s s1) by (eapply set_visited_good; [apply Iv|exact (set_visited_run a true s b G)]).
  assert (Iv1 : inv L (heap s1)) by (destruct M1 as (K1 & k & R); eapply inv_redir; eauto).
  assert (G1 : get_base (heap s1) a = Some (set_visited true b)).
  { apply get_base_nth. simpl. eapply nth_error_upd_eq. apply get_base_nth. exact G. }
  assert (S1 : returns_at (mark_shape n (mark n) a) s1).
  { destruct (b_shape b) as [sh|] eqn:Sh.
    - destruct sh; try (intros r0 s0 E; unfold mark_shape in E; apply rd_run in E;
        destruct E as [(b0 & G0 & E)|[-> ->]]; [|split; discriminate];
        assert (b0 = set_visited true b) by congruence; subst b0; simpl in E; rewrite Sh in E;
        injection E as <- <-; split; [discriminate|intros; apply vis_refl]).
      all: assert (Eu : unv (heap s) = S (unv (heap s1)))
             by (apply unv_set_visited; [exact G|exact Vb|intros y; rewrite Sh; discriminate]);
           apply (mark_shape_returns (mark n) L (unv (heap s1)) (mark_good n));
           [|lia|split; [exact Iv1|lia]];
           intros s2 c [Iv2 U2]; apply IH; [exact Iv2|lia|];
           intros b2 _; split; [lia|right; lia].
    - intros r0 s0 E. unfold mark_shape in E. apply rd_run in E.
      destruct E as [(b0 & G0 & E)|[-> ->]]; [|split; discriminate].
      assert (b0 = set_visited true b) by congruence. subst b0. simpl in E. rewrite Sh in E.
      injection E as <- <-. split; [discriminate|intros; apply vis_refl]. }
  apply bind_run in H. destruct H as [([] & s2 & H2 & H)|(U & q & H2 & _ & F)].
  2:{ destruct (S1 _ _ H2) as [X _]. split; [auto|intros o ->; exfalso; eapply U; reflexivity]. }
  destruct (S1 _ _ H2) as [_ V2]. specialize (V2 _ eq_refl).
  destruct (mark_shape_good n (mark n) (mark_good n) _ _ _ _ (inv_keyed _ _ Iv1) H2) as [M2 _].
  assert (Iv2 : inv L (heap s2)) by (destruct M2 as (K2 & k & R); eapply inv_redir; eauto).
  destruct (V2 _ _ G1) as (b2 & G2 & Vb2).
  rewrite (bind_ok _ _ _ _ _ (set_visited_run a false s2 b2 G2)) in H.
  set (s3 := St _ _ _) in H.
  assert (M3 : moved s2 s3) by (eapply set_visited_good; [apply Iv2|exact (set_visited_run a false s2 b2 G2)]).
  assert (Iv3 : inv L (heap s3)) by (destruct M3 as (K3 & k & R); eapply inv_redir; eauto).
  assert (G3 : get_base (heap s3) a = Some (set_visited false b2)).
  { apply get_base_nth. simpl. eapply nth_error_upd_eq. apply get_base_nth. exact G2. }
  assert (V3 : vis (heap s) (heap s3)).
  { intros x c Gc. destruct (Nat.eq_dec a x) as [<-|Ne].
    - assert (c = b) by congruence. subst c. exists (set_visited false b2). split; auto.
    - assert (Gc1 : get_base (heap s1) x = Some c).
      { apply get_base_nth. simpl. rewrite nth_error_upd_neq by auto. now apply get_base_nth. }
      destruct (V2 _ _ Gc1) as (c2 & Gc2 & Ec2). exists c2. split; auto.
      apply get_base_nth. simpl. rewrite nth_error_upd_neq by auto. now apply get_base_nth. }
  assert (M13 : moved s s3) by eauto using moved_trans.
  assert (U3 : unv (heap s3) <= unv (heap s)) by (destruct M13 as (_ & k & R); eapply unv_redir; eauto).
  rewrite (bind_ok _ _ _ _ _ (rd_some get_base a s3 _ G3)) in H.
  set (m := b_fdefs (set_visited false b2)) in *.
  assert (Em : m = b_fdefs b).
  { destruct M13 as (_ & k & (A & _)). destruct (A _ _ G) as (b3 & G3' & Rb).
    assert (b3 = set_visited false b2) by congruence. subst b3. unfold m. exact (brel_fdefs _ _ _ _ Rb). }
  set (Q := fun q : st => ready L (unv (heap s)) q /\ exists bq, get_base (heap q) a = Some bq /\ b_fdefs bq = m
                   /\ (get_props (heap q) m = Some [] \/ 2 * unv (heap s) + L + 3 <= S n)).
  assert (Q3 : Q s3).
  { split; [split; [exact Iv3|lia]|]. eexists. split; [exact G3|]. split; [reflexivity|].
    destruct En2 as [En2|En2]; [left|right; lia]. rewrite Em.
    destruct M13 as (_ & k & R). apply (redir_keeps _ _ _ R). exact En2. }
  assert (S4 : returns_at (mark_map n (mark n) m) s3).
  { refine (loop_map_returns (mark n) L (unv (heap s)) (mark_good n) Q _ _ m _ n 0 s3 Q3 _ _); try lia.
    - intros q Hq. apply Hq.
    - intros q q' (Hr & bq & Gq & Eq & Cq) Mv Vq. split; [eapply ready_moved; eauto|].
      destruct Mv as (_ & k & R). pose proof R as (A & _). destruct (A _ _ Gq) as (bq' & Gq' & Rb).
      exists bq'. split; [exact Gq'|]. split; [rewrite (brel_fdefs _ _ _ _ Rb); exact Eq|].
      destruct Cq as [Cq|Cq]; [left|right; exact Cq]. apply (redir_keeps _ _ _ R). exact Cq.
    - intros q l k p (Hr & bq & Gq & Eq & Cq) Gl I. destruct Hr as [Ivq Uq].
      destruct Cq as [Cq|Cq]; [rewrite Cq in Gl; injection Gl as <-; destruct I|].
      apply IH; [exact Ivq|lia|]. intros bp Gp. split; [lia|left].
      eapply (inv_flat _ _ Ivq); [exact Gq|rewrite Eq; exact Gl|exact I|exact Gp]. }
  apply bind_run in H. destruct H as [([] & s4 & H4 & H)|(U & q & H4 & _ & F)].
  - injection H as <- <-. split; [discriminate|]. intros _ _.
    destruct (S4 _ _ H4) as [_ V4]. eapply vis_trans; [exact V3|]. eapply V4; reflexivity.
  - destruct (S4 _ _ H4) as [X _]. split; [auto|intros o ->; exfalso; eapply U; reflexivity].
Qed.

Lemma bounded_lens h : exists L, lens L h.
Proof.
  induction h as [|c h [L [A B]]] using rev_ind.
  - exists 0. split; intros m l G; [apply get_props_nth in G|apply get_slice_nth in G]; destruct m; discriminate.
  - exists (match c with CProps l => List.length l | CSlice l => List.length l | _ => 0 end + L). split; intros m l G.
    + apply get_props_nth in G. destruct (Nat.eq_dec m (List.length h)) as [->|N].
      * rewrite nth_error_snoc in G. injection G as ->. lia.
      * rewrite nth_error_snoc_old in G by auto. assert (List.length l <= L) by (apply (A m); now apply get_props_nth). lia.
    + apply get_slice_nth in G. destruct (Nat.eq_dec m (List.length h)) as [->|N].
      * rewrite nth_error_snoc in G. injection G as ->. lia.
      * rewrite nth_error_snoc_old in G by auto. assert (List.length l <= L) by (apply (B m); now apply get_slice_nth). lia.
Qed.

Lemma mark_terminates s : facets_flat (heap s) -> fdefs_ok (heap s) -> maps_keyed (heap s) ->
  exists N, forall n a, N <= n -> fst (mark n a s) <> OutOfFuel.
Proof.
  intros A B C. destruct (bounded_lens (heap s)) as [L D].
  exists (2 * unv (heap s) + L + 3). intros n a Hn.
  assert (Iv : inv L (heap s)) by (constructor; auto).
  assert (R : returns_at (mark n a) s).
  { apply mark_returns with (L := L); auto; [lia|]. intros b _. split; [lia|right; lia]. }
  destruct (mark n a s) as [r s'] eqn:E. apply (R _ _ E).
Qed.

