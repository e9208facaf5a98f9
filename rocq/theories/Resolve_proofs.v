(** Proofs about the visitor and about resolution. *)
From Coq Require Import ZArith List String Bool Lia.
From Verif Require Import Base Scalars Spec_Scalars Heap Heap_lemmas Spec_Validate Validate_proofs
  Inherit_proofs Rdt Resolve Spec_Resolve.
Import ListNotations.
Open Scope string_scope.
Open Scope list_scope.
Open Scope nat_scope.

(** * Induction over trees *)

Section TreeInd.
Variables (P : expr -> Prop) (Q : typ -> Prop) (A : atom -> Prop).
Hypothesis hT : forall t, Q t -> P (EType t).
Hypothesis hU : forall t1 t2 ts, Q t1 -> Q t2 -> Forall Q ts -> P (EUnion t1 t2 ts).
Hypothesis hA : forall a, A a -> Q (TAtom a).
Hypothesis hR : forall a, A a -> Q (TArray a).
Hypothesis hO : forall a, A a -> Q (TOptional a).
Hypothesis hP : forall p, A (APrim p).
Hypothesis hG : forall e, P e -> A (AGroup e).
Hypothesis hF : forall s o, A (ARef s o).

Fixpoint expr_all (e : expr) : P e :=
  match e with
  | EType t => hT t (typ_all t)
  | EUnion t1 t2 ts => hU t1 t2 ts (typ_all t1) (typ_all t2)
      ((fix go l : Forall Q l := match l with [] => Forall_nil Q | t :: l' => Forall_cons t (typ_all t) (go l') end) ts)
  end
with typ_all (t : typ) : Q t :=
  match t with
  | TAtom a => hA a (atom_all a)
  | TArray a => hR a (atom_all a)
  | TOptional a => hO a (atom_all a)
  end
with atom_all (a : atom) : A a :=
  match a with
  | APrim p => hP p
  | AGroup e => hG e (expr_all e)
  | ARef s o => hF s o
  end.

Lemma trees_all : (forall e, P e) /\ (forall t, Q t) /\ (forall a, A a).
Proof. split; [exact expr_all|split; [exact typ_all|exact atom_all]]. Qed.
End TreeInd.

(** * What a resolved tree looks like *)

Definition prim_shape (h : list cell) (lo hi : nat) (p : prim) (sh : shape) : Prop :=
  match p with
  | PAny => sh = SAny
  | PNil => sh = SNil
  | PString => sh = SStr (StrF None None None None)
  | PBoolean => sh = SBool None
  | PArray => sh = SArray (ArrF None None None None)
  | PObject => sh = SObject (ObjF None None None None None None None)
  | PUnion => exists sl, sh = SUnion sl None /\ lo <= sl < hi /\ get_slice h sl = Some []
  | PInteger => sh = SInt (IntF None None None None None)
  | PNumber => sh = SNum (NumF None None None None None)
  | PFile => sh = SFile (FileF None None None)
  | PDatetime => sh = SDateTime None
  | PDatetimeOnly => sh = SDateTimeOnly
  | PDateOnly => sh = SDateOnly
  | PTimeOnly => sh = STimeOnly
  end.

Section Tree.
(** [c]: whether the containers of the shapes matter. *)
Variable c : Prop.
Variable ok : base -> Prop.
Variable leaf : string -> base -> Prop.

Definition node (h : list cell) (a : addr) (sh : shape) : Prop :=
  exists b, get_base h a = Some b /\ b_shape b = Some sh /\ ok b
    /\ (c -> get_slice h (b_inherits b) = Some [] /\ get_props h (b_fdefs b) = Some []).
Definition leafnode (h : list cell) (name : string) (a : addr) : Prop :=
  exists b, get_base h a = Some b /\ leaf name b
    /\ (c -> get_slice h (b_inherits b) = Some [] /\ get_props h (b_fdefs b) = Some []).
Definition own (h : list cell) (lo hi : nat) (x : addr) : Prop :=
  c -> exists b, get_base h x = Some b /\ lo <= b_inherits b < hi /\ lo <= b_fdefs b < hi.

Fixpoint chain (h : list cell) (ps : list (nat -> nat -> addr -> Prop)) (lo hi : nat) (xs : list addr)
    : Prop :=
  match ps, xs with
  | [], [] => lo <= hi
  | p :: ps', x :: xs' =>
      exists mid, lo <= x < mid /\ own h lo x x /\ p (S x) mid x /\ chain h ps' mid hi xs'
  | _, _ => False
  end.

Fixpoint tree (h : list cell) (e : expr) (lo hi : nat) (a : addr) {struct e} : Prop :=
  match e with
  | EType t => tree_typ h t lo hi a
  | EUnion t1 t2 ts =>
      exists sl xs, node h a (SUnion sl None) /\ get_slice h sl = Some xs /\ sl < hi
        /\ chain h (tree_typ h t1 :: tree_typ h t2 :: map (fun t => tree_typ h t) ts) lo sl xs
  end
with tree_typ (h : list cell) (t : typ) (lo hi : nat) (a : addr) {struct t} : Prop :=
  match t with
  | TAtom x => tree_atom h x lo hi a
  | TArray x =>
      exists i, node h a (SArray (ArrF (Some i) None None None))
        /\ chain h [fun lo hi a => tree_atom h x lo hi a] lo hi [i]
  | TOptional x =>
      exists sl xs, node h a (SUnion sl None) /\ get_slice h sl = Some xs /\ sl < hi
        /\ chain h [(fun lo hi a => tree_atom h x lo hi a); (fun _ _ a => node h a SNil)] lo sl xs
  end
with tree_atom (h : list cell) (x : atom) (lo hi : nat) (a : addr) {struct x} : Prop :=
  match x with
  | APrim p => exists sh, node h a sh /\ prim_shape h lo hi p sh
  | AGroup e => tree h e lo hi a
  | ARef s o => leafnode h (ref_name s o) a
  end.

(** Nothing outside the interval, the root and its own containers matters. *)
Definition same (h h' : list cell) (x : addr) : Prop := nth_error h' x = nth_error h x.

Definition agree (h h' : list cell) (lo hi : nat) (a : addr) : Prop :=
  (forall x, lo <= x < hi -> same h h' x) /\ same h h' a
  /\ (c -> forall b, get_base h a = Some b -> same h h' (b_inherits b) /\ same h h' (b_fdefs b)).

Lemma same_base h h' x : same h h' x -> get_base h' x = get_base h x.
Proof. unfold get_base, same. now intros ->. Qed.
Lemma same_slice h h' x : same h h' x -> get_slice h' x = get_slice h x.
Proof. unfold get_slice, same. now intros ->. Qed.
Lemma same_props h h' x : same h h' x -> get_props h' x = get_props h x.
Proof. unfold get_props, same. now intros ->. Qed.

Lemma node_frame h h' lo hi a sh : agree h h' lo hi a -> node h a sh -> node h' a sh.
Proof.
  intros (_ & S & C) (b & E & H1 & H2 & H3). exists b.
  rewrite (same_base _ _ _ S). repeat (split; [assumption|]). intros X. destruct (C X _ E) as [C1 C2].
  rewrite (same_slice _ _ _ C1), (same_props _ _ _ C2). auto.
Qed.

Lemma leaf_frame h h' lo hi n a : agree h h' lo hi a -> leafnode h n a -> leafnode h' n a.
Proof.
  intros (_ & S & C) (b & E & H1 & H2). exists b.
  rewrite (same_base _ _ _ S). repeat (split; [assumption|]). intros X. destruct (C X _ E) as [C1 C2].
  rewrite (same_slice _ _ _ C1), (same_props _ _ _ C2). auto.
Qed.

Definition framed (h h' : list cell) (p p' : nat -> nat -> addr -> Prop) : Prop :=
  forall lo hi a, agree h h' lo hi a -> p lo hi a -> p' lo hi a.

Lemma own_agree h h' lo hi x : (forall y, lo <= y < hi -> same h h' y) -> lo <= x < hi -> own h lo x x ->
  forall mid, mid <= hi -> agree h h' (S x) mid x.
Proof.
  intros S L O mid M. split; [|split].
  - intros y Y. apply S. lia.
  - apply S. lia.
  - intros X b' E'. destruct (O X) as (b & E & I1 & I2). rewrite E in E'. injection E' as <-. split; apply S; lia.
Qed.

Lemma chain_le h ps : forall lo hi xs, chain h ps lo hi xs -> lo <= hi.
Proof.
  induction ps as [|p ps IH]; intros lo hi [|x xs] C; simpl in C; try contradiction; auto.
  destruct C as (mid & L & _ & _ & C). apply IH in C. lia.
Qed.

Lemma own_frame h h' lo x : same h h' x -> own h lo x x -> own h' lo x x.
Proof. intros S O X. destruct (O X) as (b & E & I). exists b. now rewrite (same_base _ _ _ S). Qed.

Lemma chain_frame h h' ps ps' : Forall2 (framed h h') ps ps' -> forall lo hi xs,
  (forall y, lo <= y < hi -> same h h' y) -> chain h ps lo hi xs -> chain h' ps' lo hi xs.
Proof.
  induction 1 as [|p p' ps ps' F _ IH]; intros lo hi [|x xs] S C; simpl in *; try contradiction; auto.
  destruct C as (mid & L & O & Px & C). pose proof (chain_le _ _ _ _ _ C) as L2.
  exists mid. repeat split; try lia.
  - eapply own_frame; [|exact O]. apply S. lia.
  - eapply F; [|exact Px]. eapply own_agree with (lo := lo) (hi := hi); eauto; lia.
  - apply IH; auto. intros y Y. apply S. lia.
Qed.

Lemma tree_frames h h' :
  (forall e, framed h h' (tree h e) (tree h' e))
  /\ (forall t, framed h h' (tree_typ h t) (tree_typ h' t))
  /\ (forall x, framed h h' (tree_atom h x) (tree_atom h' x)).
Proof.
  apply trees_all.
  - intros t H. exact H.
  - intros t1 t2 ts H1 H2 H3 lo hi a G (sl & xs & N & E & L & C). exists sl, xs. split; [eapply node_frame; eauto|].
    destruct G as (G1 & G2 & G3).
    assert (LS : lo <= sl) by (eapply chain_le; exact C).
    rewrite (same_slice h h') by (apply G1; lia). split; [auto|split; [auto|]].
    eapply chain_frame; [| |exact C]; [|intros y Y; apply G1; lia].
    constructor; [exact H1|]. constructor; [exact H2|].
    clear -H3. induction H3; simpl; constructor; auto.
  - intros x H. exact H.
  - intros x H lo hi a G (i & N & C). exists i. split; [eapply node_frame; eauto|].
    destruct G as (G1 & G2 & G3).
    eapply chain_frame; [| |exact C]; [|intros y Y; apply G1; lia].
    constructor; [exact H|constructor].
  - intros x H lo hi a G (sl & xs & N & E & L & C). exists sl, xs. split; [eapply node_frame; eauto|].
    destruct G as (G1 & G2 & G3).
    assert (LS : lo <= sl) by (eapply chain_le; exact C).
    rewrite (same_slice h h') by (apply G1; lia). split; [auto|split; [auto|]].
    eapply chain_frame; [| |exact C]; [|intros y Y; apply G1; lia].
    constructor; [exact H|]. constructor; [|constructor].
    intros lo' hi' a' G' N'. eapply node_frame; eauto.
  - intros p lo hi a G (sh & N & S). exists sh. split; [eapply node_frame; eauto|].
    destruct G as (G1 & _). destruct p; auto. destruct S as (sl & -> & L & E). exists sl.
    rewrite (same_slice h h') by (apply G1; lia). auto.
  - intros e H. exact H.
  - intros s o lo hi a G N. eapply leaf_frame; eauto.
Qed.
End Tree.

(** * Meaning of a resolved tree *)

Section Meaning.
Variables (O : oracle) (h : list cell) (R : string -> gval -> Prop).
Variable c : Prop.
Variable ok : base -> Prop.
Variable leaf : string -> base -> Prop.
Hypothesis leaf_ok : forall name b, leaf name b ->
  exists sh, b_shape b = Some sh /\ forall v, shape_accepts O h (valid O h) sh v <-> R name v.

Lemma valid_shape a sh v : shape_at h a sh -> (valid O h a v <-> shape_accepts O h (valid O h) sh v).
Proof.
  intros S. rewrite valid_iff. split.
  - intros (sh' & (b' & E' & S') & A). destruct S as (b & E & S). congruence.
  - intros A. exists sh. auto.
Qed.

Lemma node_shape a sh : node c ok h a sh -> shape_at h a sh.
Proof. intros (b & E & S & _). exists b. auto. Qed.

Lemma prim_meaning p sh lo hi v : prim_shape h lo hi p sh ->
  (shape_accepts O h (valid O h) sh v <-> prim_values O p v).
Proof.
  intros S. destruct p; simpl in S; try subst sh; simpl; try tauto.
  - (* string *) unfold str_accepts. split.
    + intros (s & -> & _). eauto.
    + intros (s & ->). exists s. simpl. repeat split; auto; try (intros; discriminate).
  - (* boolean *) unfold bool_accepts. split.
    + intros (b & -> & _). eauto.
    + intros (b & ->). exists b. split; auto. intros; discriminate.
  - (* array *) unfold array_accepts. split.
    + intros (l & -> & _). eauto.
    + intros (l & ->). exists l. simpl. repeat split; auto; try (intros; discriminate).
  - (* object *) unfold object_accepts. split.
    + intros (l & ps & pps & -> & _). eauto.
    + intros (l & ->). exists l, [], []. simpl. split; auto. split; [now left|]. split; [now left|].
      split; [intros m M; discriminate M|]. split; [intros m M; discriminate M|]. split; [intros k p []|]. split; [intros; discriminate|].
      intros k x _ _. split; [discriminate|]. left. intros k' p [].
  - destruct S as (sl & -> & L & E). simpl. unfold union_accepts. split; [|tauto].
    intros (l & m & E' & I & _). rewrite E in E'. injection E' as <-. destruct I.
Qed.

Definition means (p : nat -> nat -> addr -> Prop) (D : gval -> Prop) : Prop :=
  forall lo hi a v, p lo hi a -> (valid O h a v <-> D v).

Lemma chain_means ps Ds : Forall2 means ps Ds -> forall lo hi xs v, chain c h ps lo hi xs ->
  ((exists m, In m xs /\ valid O h m v) <-> fold_right or False (map (fun D => D v) Ds)).
Proof.
  induction 1 as [|p D ps Ds M _ IH]; intros lo hi [|x xs] v C; simpl in *; try contradiction.
  - split; [intros (m & [] & _)|tauto].
  - destruct C as (mid & _ & _ & Px & C). rewrite <- (IH _ _ _ v C), <- (M _ _ _ v Px). split.
    + intros (m & [->|I] & V); eauto.
    + intros [V|(m & I & V)]; eauto.
Qed.

Lemma union_meaning a sl xs v : node c ok h a (SUnion sl None) -> get_slice h sl = Some xs ->
  (valid O h a v <-> exists m, In m xs /\ valid O h m v).
Proof.
  intros N E. rewrite (valid_shape _ _ _ (node_shape _ _ N)). simpl. unfold union_accepts. split.
  - intros (l & m & E' & I & V). assert (l = xs) by congruence. subst. eauto.
  - intros (m & I & V). eauto.
Qed.

Lemma tree_means :
  (forall e, means (tree c ok leaf h e) (denotes O R e))
  /\ (forall t, means (tree_typ c ok leaf h t) (denotes_typ O R t))
  /\ (forall x, means (tree_atom c ok leaf h x) (denotes_atom O R x)).
Proof.
  apply trees_all.
  - intros t H. exact H.
  - intros t1 t2 ts H1 H2 H3 lo hi a v (sl & xs & N & E & L & C). rewrite (union_meaning _ _ _ _ N E).
    etransitivity.
    + eapply (chain_means _ (denotes_typ O R t1 :: denotes_typ O R t2 :: map (denotes_typ O R) ts)); [|exact C].
      constructor; [exact H1|]. constructor; [exact H2|].
      clear -H3. induction H3; simpl; constructor; auto.
    + simpl. now rewrite map_map.
  - intros x H. exact H.
  - intros x H lo hi a v (i & N & C). rewrite (valid_shape _ _ _ (node_shape _ _ N)).
    destruct C as (mid & _ & _ & T & _). simpl. unfold array_accepts. split.
    + intros (l & -> & _ & _ & I & _). exists l. split; auto. intros x0 K.
      rewrite <- (H _ _ _ x0 T). apply I; auto.
    + intros (l & -> & K). exists l. simpl. split; auto. split; [intros m M; discriminate M|].
      split; [intros m M; discriminate M|]. split; [|intros J; discriminate J].
      intros i' x0 J K'. injection J as <-. rewrite (H _ _ _ x0 T). exact (K x0 K').
  - intros x H lo hi a v (sl & xs & N & E & L & C). rewrite (union_meaning _ _ _ _ N E).
    etransitivity.
    + eapply (chain_means _ [denotes_atom O R x; fun v => v = GNil]); [|exact C].
      constructor; [exact H|]. constructor; [|constructor].
      intros lo' hi' a' v' N'. rewrite (valid_shape _ _ _ (node_shape _ _ N')). simpl. tauto.
    + change (denotes_typ O R (TOptional x) v) with (denotes_atom O R x v \/ v = GNil). cbn [map fold_right]. tauto.
  - intros p lo hi a v (sh & N & S). rewrite (valid_shape _ _ _ (node_shape _ _ N)).
    eapply prim_meaning; eauto.
  - intros e H. exact H.
  - intros s o lo hi a v (b & E & Lf & _). destruct (leaf_ok _ _ Lf) as (sh & S & K).
    rewrite (valid_shape a sh) by (exists b; auto). apply K.
Qed.
End Meaning.

(** * Single steps *)

Definition frame (s s' : st) (a : addr) : Prop :=
  List.length (heap s) <= List.length (heap s')
  /\ forall x, x < List.length (heap s) -> x <> a -> same (heap s) (heap s') x.

Lemma frame_refl s a : frame s s a.
Proof. split; auto. intros; reflexivity. Qed.

Lemma frame_trans s s1 s2 a : frame s s1 a -> frame s1 s2 a -> frame s s2 a.
Proof.
  intros [L1 F1] [L2 F2]. split; [lia|]. intros x Lx N. unfold same in *. rewrite F2 by (auto; lia). auto.
Qed.

Lemma frame_new s s1 s2 a i : frame s s1 a -> frame s1 s2 i -> List.length (heap s) <= i -> frame s s2 a.
Proof.
  intros [L1 F1] [L2 F2] Li. split; [lia|]. intros x Lx N. unfold same in *. rewrite F2 by lia. auto.
Qed.

Lemma get_base_lt h a b : get_base h a = Some b -> a < List.length h.
Proof. rewrite get_base_nth. apply nth_error_lt. Qed.

Lemma upd_base_run a f s r s' b : get_base (heap s) a = Some b -> upd_base a f s = (r, s') ->
  r = Ok tt /\ frame s s' a /\ List.length (heap s') = List.length (heap s)
  /\ get_base (heap s') a = Some (f b).
Proof.
  intros E H. unfold upd_base in H. rewrite (bind_ok _ _ _ _ _ (rd_some _ _ _ _ E)) in H.
  unfold write in H. injection H as <- <-. simpl. split; auto. repeat split; simpl.
  - rewrite upd_length. lia.
  - intros x L N. unfold same. simpl. apply nth_error_upd_neq. auto.
  - apply upd_length.
  - apply get_base_nth. apply get_base_nth in E. eapply nth_error_upd_eq; eauto.
Qed.

(** A new empty shape of kind [t]. *)
Definition fresh_shape (h : list cell) (lo hi : nat) (t : string) (sh : shape) : Prop :=
  (forall p, t = prim_text p -> prim_shape h lo hi p sh)
  /\ (forall e, sh = SBool e -> e = None)
  /\ ((forall p, t <> prim_text p) -> t = "json" /\ sh = SJSON "" \/ sh = SUnknown).

Lemma empty_shape_run t s r s' : empty_shape t s = (r, s') ->
  exists sh, r = Ok sh /\ (forall a, frame s s' a) /\ (t <> "union" -> s' = s)
    /\ fresh_shape (heap s') (List.length (heap s)) (List.length (heap s')) t sh.
Proof.
  unfold empty_shape.
  repeat match goal with
         | |- context [String.eqb t ?c] => destruct (String.eqb_spec t c) as [->|?]
         end;
  try (intros H; injection H as <- <-; eexists; split; [reflexivity|]; split; [intros; apply frame_refl|]; split; [reflexivity|];
       split; [intros p P; destruct p; try discriminate P; reflexivity|];
       split; [intros e P; congruence|]; intros K; exfalso;
       match goal with |- _ => first [apply (K PAny); reflexivity|apply (K PNil); reflexivity|now apply (K PObject)
         |apply (K PArray); reflexivity|apply (K PString); reflexivity|apply (K PInteger); reflexivity|now apply (K PNumber)
         |apply (K PDatetime); reflexivity|apply (K PDatetimeOnly); reflexivity|now apply (K PDateOnly)
         |apply (K PTimeOnly); reflexivity|apply (K PFile); reflexivity|apply (K PBoolean); reflexivity] end).
  - (* union *) intros H. unfold bind, alloc, ret in H. injection H as <- <-. eexists. split; [reflexivity|].
    split.
    + intros a. split; simpl; [rewrite app_length; simpl; lia|]. intros x L _. unfold same. simpl.
      now rewrite nth_error_app1.
    + split; [congruence|]. split; [|split].
      * intros p P; destruct p; try discriminate P. simpl. eexists. split; [reflexivity|]. split.
        { rewrite app_length. simpl. lia. }
        { apply get_slice_nth. apply nth_error_snoc. }
      * intros e P. discriminate P.
      * intros K. exfalso. now apply (K PUnion).
  - (* json *) intros H. injection H as <- <-. eexists. split; [reflexivity|]. split; [intros; apply frame_refl|].
    split; [reflexivity|]. split; [intros p P; destruct p; discriminate P|]. split; [intros e P; discriminate P|]. auto.
  - intros H. injection H as <- <-. eexists. split; [reflexivity|]. split; [intros; apply frame_refl|].
    split; [reflexivity|]. split; [intros p P; subst t; destruct p; simpl in *; congruence|]. split; [intros e P; discriminate P|]. auto.
Qed.

Lemma fresh_shape_agree h h' lo hi t sh : (forall x, lo <= x < hi -> same h h' x) ->
  fresh_shape h lo hi t sh -> fresh_shape h' lo hi t sh.
Proof.
  intros S (F1 & F2 & F3). split; [|split]; auto. intros p P. specialize (F1 _ P).
  destruct p; auto. destruct F1 as (sl & -> & L & E). exists sl. rewrite (same_slice h h') by auto. auto.
Qed.

Lemma make_concrete_run a t s r s' b : get_base (heap s) a = Some b -> make_concrete a t None s = (r, s') ->
  r = Ok tt /\ frame s s' a /\ (t <> "union" -> List.length (heap s') = List.length (heap s))
  /\ exists sh, get_base (heap s') a = Some (set_shape (Some sh) (set_type t b))
       /\ fresh_shape (heap s') (List.length (heap s)) (List.length (heap s')) t sh.
Proof.
  intros E H. unfold make_concrete in H. pose proof (get_base_lt _ _ _ E) as La.
  destruct (upd_base a (set_type t) s) as [r1 s1] eqn:H1.
  destruct (upd_base_run _ _ _ _ _ _ E H1) as (-> & F1 & Le1 & E1).
  rewrite (bind_ok _ _ _ _ _ H1) in H. clear H1.
  destruct (empty_shape t s1) as [r2 s2] eqn:H2.
  destruct (empty_shape_run _ _ _ _ H2) as (sh & -> & F2 & U & K).
  rewrite (bind_ok _ _ _ _ _ H2) in H. clear H2.
  assert (E2 : get_base (heap s2) a = Some (set_type t b)).
  { assert (SM : same (heap s1) (heap s2) a) by (apply (F2 (S a)); lia).
    rewrite (same_base _ _ _ SM). exact E1. }
  destruct (upd_base a (set_shape (Some sh)) s2) as [r3 s3] eqn:H3.
  destruct (upd_base_run _ _ _ _ _ _ E2 H3) as (-> & F3 & Le3 & E3).
  rewrite (bind_ok _ _ _ _ _ H3) in H. clear H3.
  unfold unmarshal_facets in H. rewrite (bind_ok _ _ _ sh s3 eq_refl) in H.
  destruct (upd_base_run _ _ _ _ _ _ E3 H) as (-> & F4 & Le4 & E4). split; auto.
  assert (FF : frame s2 s' a) by (eapply frame_trans; eauto).
  split; [eapply frame_trans; [exact F1|]; eapply frame_trans; [apply F2|exact FF]|].
  split; [intros NU; rewrite Le4, Le3, (U NU); exact Le1|].
  exists sh. split; [exact E4|]. rewrite <- Le1. rewrite Le4, Le3.
  eapply fresh_shape_agree; [|exact K]. intros x X. apply FF; lia.
Qed.

Lemma make_base_run loc s : exists s',
  make_base "" loc s = (Ok (3 + List.length (heap s)), s')
  /\ (forall a, frame s s' a) /\ List.length (heap s') = 4 + List.length (heap s)
  /\ exists b, get_base (heap s') (3 + List.length (heap s)) = Some b /\ bare (heap s') b /\ b_loc b = loc
       /\ b_inherits b = 2 + List.length (heap s) /\ b_fdefs b = 1 + List.length (heap s)
       /\ b_id b = (st_nextid s + 1)%Z /\ st_nextid s' = (st_nextid s + 1)%Z.
Proof.
  destruct s as [h sh nx]. set (L := List.length h).
  exists (St (h ++ [CFacets []; CProps []; CSlice [];
     CBase (Base (nx + 1)%Z "" loc "" None None None None None None [] (2 + L) None None L (1 + L) false false None)])
     (sh ++ [3 + L]) (nx + 1)%Z).
  assert (Q : forall k l, nth_error (h ++ l) (k + L) = nth_error l k).
  { intros k l. rewrite nth_error_app2 by (unfold L; lia). f_equal. unfold L. lia. }
  split.
  { unfold make_base, bind, gen_id, alloc, put_shape, ret. simpl. rewrite !app_length. simpl.
    rewrite <- !app_assoc. simpl. fold L. replace (L + 1 + 1 + 1) with (S (S (S L))) by lia.
    replace (L + 1 + 1) with (S (S L)) by lia. replace (L + 1) with (S L) by lia. reflexivity. }
  split.
  { intros a. split; simpl; [rewrite app_length; lia|]. intros x X _. unfold same. simpl.
    now rewrite nth_error_app1. }
  split; [simpl; rewrite app_length; simpl; fold L; lia|].
  eexists. split; [apply get_base_nth; simpl heap; exact (Q 3 _)|]. simpl. repeat split; auto.
  - apply get_slice_nth. simpl. exact (Q 2 _).
  - apply get_props_nth. simpl. exact (Q 1 _).
Qed.

Lemma make_new_run t loc s r s' : make_new "" t loc s = (r, s') ->
  exists i, r = Ok i /\ i = 3 + List.length (heap s) /\ i < List.length (heap s')
    /\ (t <> "union" -> List.length (heap s') = S i) /\ (forall a, frame s s' a)
    /\ exists b sh, get_base (heap s') i = Some b /\ bare (heap s') b /\ b_loc b = loc
         /\ b_inherits b = 2 + List.length (heap s) /\ b_fdefs b = 1 + List.length (heap s)
         /\ b_shape b = Some sh /\ fresh_shape (heap s') (S i) (List.length (heap s')) t sh.
Proof.
  intros H. unfold make_new in H.
  destruct (make_base_run loc s) as (s1 & R1 & F1 & L1 & b & E & B & Lo & I1 & I2 & _).
  rewrite (bind_ok _ _ _ _ _ R1) in H. set (i := 3 + List.length (heap s)) in *.
  destruct (make_concrete i t None s1) as [r2 s2] eqn:H2.
  destruct (make_concrete_run _ _ _ _ _ _ E H2) as (-> & F2 & NU & sh & E2 & K).
  rewrite (bind_ok _ _ _ _ _ H2) in H. injection H as <- <-.
  exists i. split; auto. split; auto.
  assert (Li : i < List.length (heap s2)) by (destruct F2 as [F2 _]; unfold i in *; lia).
  split; auto. split; [intros U; rewrite (NU U); unfold i; lia|]. split.
  { intros a. eapply frame_new; [apply F1|exact F2|]. unfold i. lia. }
  exists (set_shape (Some sh) (set_type t b)), sh. split; auto. split.
  { destruct B as (B1 & B2 & B3 & B4 & B5). repeat split; auto.
    - simpl. assert (X : same (heap s1) (heap s2) (b_inherits b)) by (apply F2; unfold i; lia).
      now rewrite (same_slice _ _ _ X).
    - simpl. assert (X : same (heap s1) (heap s2) (b_fdefs b)) by (apply F2; unfold i; lia).
      now rewrite (same_props _ _ _ X). }
  split; auto. split; auto. split; auto. split; auto. replace (S i) with (List.length (heap s1)) by (unfold i; lia).
  exact K.
Qed.

(** * The visitor *)

Definition resolved (h : list cell) (r : addr) : Prop :=
  exists b sh, get_base h r = Some b /\ b_shape b = Some sh /\ sh <> SUnknown.

Section Visitor.
Variable E : renv.
Variable rec : addr -> M unit.
Hypothesis rec_resolved : forall r s x s', resolved (heap s) r -> rec r s = (Ok x, s') -> s' = s.
Variable loc : string.

Definition pre_ok (b : base) : Prop := b_alias b = None /\ b_link b = None /\ b_unwrapped b = false.
Definition pre_leaf (name : string) (b : base) : Prop :=
  exists r sh, rv_lookup E name loc = Some r /\ b_alias b = Some r /\ b_unwrapped b = false
    /\ b_shape b = Some sh /\ forall e, sh = SBool e -> e = None.

Notation ptree := (tree True pre_ok pre_leaf).
Notation ptyp := (tree_typ True pre_ok pre_leaf).
Notation patom := (tree_atom True pre_ok pre_leaf).

Definition refs_ok (h : list cell) (a : addr) (l : list string) : Prop :=
  forall name r, In name l -> rv_lookup E name loc = Some r -> r <> a /\ resolved h r.

Definition keeps (b b' : base) : Prop :=
  b_inherits b' = b_inherits b /\ b_fdefs b' = b_fdefs b /\ b_loc b' = b_loc b.

(** What visiting with [v] and references [l] does. *)
Definition visits (v : addr -> M unit) (l : list string) (T : list cell -> nat -> nat -> addr -> Prop) : Prop :=
  forall a s s' b, get_base (heap s) a = Some b -> bare (heap s) b -> b_loc b = loc ->
    refs_ok (heap s) a l -> v a s = (Ok tt, s') ->
    frame s s' a /\ (exists b', get_base (heap s') a = Some b' /\ keeps b b')
    /\ T (heap s') (List.length (heap s)) (List.length (heap s')) a.

Lemma bare_lt h b : bare h b -> b_inherits b < List.length h /\ b_fdefs b < List.length h.
Proof.
  intros (_ & _ & _ & B1 & B2). apply get_slice_nth in B1. apply get_props_nth in B2.
  split; eapply nth_error_lt; eauto.
Qed.

Lemma bare_neq h b a b' : bare h b -> get_base h a = Some b' -> b_inherits b <> a /\ b_fdefs b <> a.
Proof.
  intros (_ & _ & _ & B1 & B2) X. apply get_slice_nth in B1. apply get_props_nth in B2. apply get_base_nth in X.
  split; intros EQ; rewrite EQ in *; congruence.
Qed.

Lemma bare_frame s s' a b b' : bare (heap s) b -> get_base (heap s) a = Some b' -> frame s s' a ->
  get_slice (heap s') (b_inherits b) = Some [] /\ get_props (heap s') (b_fdefs b) = Some [].
Proof.
  intros B G [_ F]. destruct (bare_lt _ _ B) as [L1 L2]. destruct (bare_neq _ _ _ _ B G) as [N1 N2].
  destruct B as (_ & _ & _ & B1 & B2).
  split; [rewrite (same_slice _ _ _ (F _ L1 N1))|rewrite (same_props _ _ _ (F _ L2 N2))]; auto.
Qed.

Lemma resolved_frame s s' a r : frame s s' a -> r <> a -> resolved (heap s) r -> resolved (heap s') r.
Proof.
  intros [_ F] N (b & sh & G & K). exists b, sh. rewrite (same_base (heap s) (heap s')); auto.
  apply F; auto. eapply get_base_lt; eauto.
Qed.

Lemma refs_frame s s' a i l l' : refs_ok (heap s) a l -> (forall x, In x l' -> In x l) -> frame s s' a ->
  List.length (heap s) <= i -> refs_ok (heap s') i l'.
Proof.
  intros R I F Li name r IN LK. destruct (R name r (I _ IN) LK) as [N K]. split.
  - destruct K as (b & sh & G & _). apply get_base_lt in G. lia.
  - eapply resolved_frame; eauto.
Qed.

(** A new anonymous shape, visited. *)
Lemma member_visits v l T s s1 s' x a l0 :
  visits v l T -> refs_ok (heap s) a l0 -> (forall n, In n l -> In n l0) ->
  make_new "" "" loc s = (Ok x, s1) -> v x s1 = (Ok tt, s') ->
  (forall a, frame s s' a) /\ List.length (heap s) <= x < List.length (heap s')
  /\ own True (heap s') (List.length (heap s)) x x
  /\ T (heap s') (S x) (List.length (heap s')) x.
Proof.
  intros V RO IN H1 H2.
  destruct (make_new_run _ _ _ _ _ H1) as (i & X & Ei & Li & NU & F1 & b & sh & G & B & Lo & I1 & I2 & _).
  injection X as ->.
  assert (RO1 : refs_ok (heap s1) i l).
  { eapply refs_frame; [exact RO|exact IN|apply F1|]. lia. }
  destruct (V _ _ _ _ G B Lo RO1 H2) as (F2 & (b' & G' & K1 & K2 & K3) & TT).
  rewrite (NU ltac:(discriminate)) in TT.
  split. { intros c. eapply frame_new; [apply F1|exact F2|]. lia. }
  split. { destruct F2. lia. }
  split; auto. intros _. exists b'. split; auto. rewrite K1, K2. lia.
Qed.

Lemma set_members_run a sl s r s' b sl0 e : get_base (heap s) a = Some b -> b_shape b = Some (SUnion sl0 e) ->
  set_members a sl s = (r, s') ->
  r = Ok tt /\ frame s s' a /\ List.length (heap s') = List.length (heap s)
  /\ get_base (heap s') a = Some (set_shape (Some (SUnion sl e)) b).
Proof.
  intros G S H. destruct (upd_base_run _ _ _ _ _ _ G H) as (-> & F & L & G'). split; auto. split; auto. split; auto.
  rewrite G'. now rewrite S.
Qed.

Lemma frame_keep s s' x b : (forall c, frame s s' c) -> get_base (heap s) x = Some b -> get_base (heap s') x = Some b.
Proof.
  intros F G. rewrite (same_base (heap s) (heap s')); auto. pose proof (get_base_lt _ _ _ G).
  apply (F (S x)); lia.
Qed.

Definition members_of (vt : typ -> addr -> M unit) (lo : string) : list typ -> M (list addr) :=
  fix members (l : list typ) : M (list addr) :=
    match l with
    | [] => ret []
    | t :: l' => (x <- make_new "" "" lo ;; vt t x ;;; r <- members l' ;; ret (x :: r))%M
    end.

Lemma frames_same s s' x : (forall a, frame s s' a) -> x < List.length (heap s) -> same (heap s) (heap s') x.
Proof. intros F L. apply (F (S x)); lia. Qed.

Lemma typ_frames h h' t lo hi a : agree True h h' lo hi a -> ptyp h t lo hi a -> ptyp h' t lo hi a.
Proof. intros A T. now apply (proj1 (proj2 (tree_frames True pre_ok pre_leaf h h')) t lo hi a A). Qed.

Lemma typs_framed h h' ts : Forall2 (framed True h h') (map (fun t => ptyp h t) ts) (map (fun t => ptyp h' t) ts).
Proof.
  induction ts; simpl; constructor; auto. intros lo hi x A T. eapply typ_frames; eauto.
Qed.

Lemma agree_later s s' lo x mid : (forall a, frame s s' a) -> own True (heap s) lo x x -> lo <= x < mid ->
  mid <= List.length (heap s) -> agree True (heap s) (heap s') (S x) mid x.
Proof.
  intros F O L M. eapply own_agree with (lo := lo) (hi := mid); eauto.
  intros y Y. apply frames_same; auto. lia.
Qed.

Lemma members_run ts : Forall (fun t => visits (fun a => visit_typ E rec t a None) (refs_typ t) (fun h => ptyp h t)) ts ->
  forall s s' xs a l, refs_ok (heap s) a l -> (forall t n, In t ts -> In n (refs_typ t) -> In n l) ->
  members_of (fun t x => visit_typ E rec t x None) loc ts s = (Ok xs, s') ->
  (forall a, frame s s' a)
  /\ chain True (heap s') (map (fun t => ptyp (heap s') t) ts) (List.length (heap s)) (List.length (heap s')) xs.
Proof.
  induction 1 as [|t ts V _ IH]; intros s s' xs a l RO IN H; simpl in H.
  - injection H as <- <-. simpl. split; auto. intros; apply frame_refl.
  - apply bind_inv in H. destruct H as (x & s1 & H1 & H).
    apply bind_inv in H. destruct H as ([] & s2 & H2 & H).
    apply bind_inv in H. destruct H as (r & s3 & H3 & H). injection H as <- <-.
    assert (INT : forall n, In n (refs_typ t) -> In n l).
    { intros n I. eapply IN; [left; reflexivity|exact I]. }
    destruct (member_visits (fun a => visit_typ E rec t a None) (refs_typ t) (fun h => ptyp h t)
                s s1 s2 x a l V RO INT H1 H2) as (F1 & L1 & O1 & T1).
    assert (RO2 : refs_ok (heap s2) x l).
    { eapply refs_frame; [exact RO|auto|apply F1|]. lia. }
    assert (IN2 : forall t0 n, In t0 ts -> In n (refs_typ t0) -> In n l).
    { intros t' n I. eapply IN. right. exact I. }
    destruct (IH s2 s3 r x l RO2 IN2 H3) as (F2 & C2).
    split. { intros c. eapply frame_trans; [apply F1|apply F2]. }
    simpl. exists (List.length (heap s2)). split; [lia|]. split.
    { eapply own_frame; [|exact O1]. apply frames_same; auto. lia. }
    split; auto. eapply typ_frames; [|exact T1]. eapply agree_later; eauto.
Qed.

Lemma node_after s s' a b b' sh : bare (heap s) b -> get_base (heap s) a = Some b -> frame s s' a ->
  get_base (heap s') a = Some b' -> b_shape b' = Some sh -> b_alias b' = b_alias b -> b_link b' = b_link b ->
  b_unwrapped b' = b_unwrapped b -> keeps b b' -> node True pre_ok (heap s') a sh.
Proof.
  intros B G F G' S A1 A2 A3 (K1 & K2 & K3). exists b'. split; auto. split; auto.
  destruct (bare_frame _ _ _ _ _ B G F) as [C1 C2]. rewrite K1, K2.
  destruct B as (B1 & B2 & B3 & _). repeat split; congruence.
Qed.

Lemma chain_lo h ps lo' lo hi xs : lo' <= lo -> chain True h ps lo hi xs -> chain True h ps lo' hi xs.
Proof.
  destruct ps as [|p ps], xs as [|x xs]; simpl; intros L C; try contradiction; [lia|].
  destruct C as (mid & L1 & O & P & C). exists mid. split; [lia|]. split; auto.
  intros X. destruct (O X) as (b & G & O1 & O2). exists b. split; auto. lia.
Qed.

(** The last steps of a union: the slice of members is stored. *)
Lemma union_end s s1 s2 s3 a b xs ps ps' sh0 :
  bare (heap s) b -> get_base (heap s) a = Some b -> frame s s1 a ->
  get_base (heap s1) a = Some (set_shape (Some sh0) (set_type "union" b)) ->
  fresh_shape (heap s1) (List.length (heap s)) (List.length (heap s1)) "union" sh0 ->
  (forall c, frame s1 s2 c) ->
  chain True (heap s2) ps (List.length (heap s1)) (List.length (heap s2)) xs ->
  (forall h', (forall y, List.length (heap s1) <= y < List.length (heap s2) -> same (heap s2) h' y) ->
     Forall2 (framed True (heap s2) h') ps (ps' h')) ->
  (sl <- alloc (CSlice xs) ;; set_members a sl)%M s2 = (Ok tt, s3) ->
  frame s s3 a /\ (exists b', get_base (heap s3) a = Some b' /\ keeps b b')
  /\ exists sl, node True pre_ok (heap s3) a (SUnion sl None) /\ get_slice (heap s3) sl = Some xs
       /\ sl < List.length (heap s3) /\ chain True (heap s3) (ps' (heap s3)) (List.length (heap s)) sl xs.
Proof.
  intros B G F1 G1 K F2 C FR H.
  assert (SH : exists sl0, sh0 = SUnion sl0 None).
  { destruct K as (K & _). destruct (K PUnion eq_refl) as (sl0 & -> & _). eauto. }
  destruct SH as (sl0 & ->).
  apply bind_inv in H. destruct H as (sl & s4 & HA & H). injection HA as <- <-.
  set (s4 := St (heap s2 ++ [CSlice xs]) (st_shapes s2) (st_nextid s2)) in *.
  assert (F3 : forall c, frame s2 s4 c).
  { intros c. split; simpl; [rewrite app_length; lia|]. intros y Y _. unfold same. simpl. now rewrite nth_error_app1. }
  set (sl := List.length (heap s2)) in *.
  assert (E4 : nth_error (heap s4) sl = Some (CSlice xs)) by apply nth_error_snoc.
  assert (La : a < List.length (heap s)) by (eapply get_base_lt; eauto).
  assert (G4 : get_base (heap s4) a = Some (set_shape (Some (SUnion sl0 None)) (set_type "union" b))).
  { eapply frame_keep; [|eapply frame_keep; [|exact G1]]; auto. }
  destruct (set_members_run _ _ _ _ _ _ _ _ G4 eq_refl H) as (_ & F4 & L4 & G5).
  assert (FF : frame s s3 a).
  { eapply frame_trans; [exact F1|]. eapply frame_trans; [apply F2|]. eapply frame_trans; [apply F3|exact F4]. }
  assert (KE : keeps b (set_shape (Some (SUnion sl None)) (set_shape (Some (SUnion sl0 None)) (set_type "union" b)))).
  { repeat split. }
  split; auto. split; [eauto|]. exists sl. split.
  { eapply node_after; try eassumption; auto. }
  assert (LL : List.length (heap s) <= List.length (heap s1) <= sl).
  { destruct F1, (F2 0). unfold sl. lia. }
  assert (L5 : List.length (heap s4) = S sl) by (simpl; rewrite app_length; simpl; fold sl; lia).
  split. { rewrite (same_slice (heap s4) (heap s3)); [now apply get_slice_nth|]. apply F4; lia. }
  split; [lia|].
  eapply chain_lo; [|eapply chain_frame; [apply FR| |exact C]]; [lia| |].
  - intros y Y. unfold same. rewrite (proj2 F4 y) by lia. apply frames_same; auto. unfold sl in *; lia.
  - intros y Y. unfold same. rewrite (proj2 F4 y) by lia. apply frames_same; auto. unfold sl in *; lia.
Qed.

Lemma visit_all :
  (forall e, visits (fun a => visit_expr E rec e a None) (refs e) (fun h => ptree h e))
  /\ (forall t, visits (fun a => visit_typ E rec t a None) (refs_typ t) (fun h => ptyp h t))
  /\ (forall x, visits (fun a => visit_atom E rec x a None) (refs_atom x) (fun h => patom h x)).
Proof.
  apply trees_all.
  - intros t H. exact H.
  - (* union *)
    intros t1 t2 ts V1 V2 VS a s s' b G B Lo RO H. cbn [visit_expr] in H. cbn [refs] in RO.
    apply bind_inv in H. destruct H as ([] & s1 & H1 & H).
    destruct (make_concrete_run _ _ _ _ _ _ G H1) as (_ & F1 & _ & sh0 & G1 & K).
    rewrite (bind_ok _ _ _ _ _ (rd_some _ _ _ _ G1)) in H.
    change (b_loc (set_shape (Some sh0) (set_type "union" b))) with (b_loc b) in H. rewrite Lo in H.
    set (l := refs_typ t1 ++ refs_typ t2 ++ flat_map refs_typ ts) in *.
    assert (RO1 : forall s2, (forall c, frame s1 s2 c) -> refs_ok (heap s2) (List.length (heap s)) l).
    { intros s2 F2. eapply refs_frame; [exact RO|auto| |lia]. eapply frame_trans; [exact F1|apply F2]. }
    assert (ALL : exists xs s2, members_of (fun t x => visit_typ E rec t x None) loc (t1 :: t2 :: ts) s1 = (Ok xs, s2)
       /\ (sl <- alloc (CSlice xs) ;; set_members a sl)%M s2 = (Ok tt, s')).
    { apply bind_inv in H. destruct H as (x1 & u1 & J1 & H).
      apply bind_inv in H. destruct H as ([] & u2 & J2 & H).
      apply bind_inv in H. destruct H as (x2 & u3 & J3 & H).
      apply bind_inv in H. destruct H as ([] & u4 & J4 & H).
      apply bind_inv in H. destruct H as (xs & u5 & J5 & H).
      change (members_of (fun t x => visit_typ E rec t x None) loc ts u4 = (Ok xs, u5)) in J5.
      exists (x1 :: x2 :: xs), u5. split; auto. cbn [members_of].
      rewrite (bind_ok _ _ _ _ _ J1), (bind_ok _ _ _ _ _ J2).
      assert (T : (x <- make_new "" "" loc ;; visit_typ E rec t2 x None ;;;
                   r <- members_of (fun t x => visit_typ E rec t x None) loc ts ;; ret (x :: r))%M u2
                  = (Ok (x2 :: xs), u5)).
      { rewrite (bind_ok _ _ _ _ _ J3), (bind_ok _ _ _ _ _ J4), (bind_ok _ _ _ _ _ J5). reflexivity. }
      rewrite (bind_ok _ _ _ _ _ T). reflexivity. }
    clear H. destruct ALL as (xs & s2 & HM & H).
    assert (FS : Forall (fun t => visits (fun a => visit_typ E rec t a None) (refs_typ t) (fun h => ptyp h t)) (t1 :: t2 :: ts)).
    { constructor; auto. }
    assert (IN : forall t n, In t (t1 :: t2 :: ts) -> In n (refs_typ t) -> In n l).
    { intros t n [<-|[<-|I]] J; unfold l; rewrite !in_app_iff; auto. right. right. apply in_flat_map. eauto. }
    destruct (members_run _ FS s1 s2 xs (List.length (heap s)) l (RO1 s1 ltac:(intros; apply frame_refl)) IN HM) as (F2 & C).
    destruct (union_end s s1 s2 s' a b xs _
                (fun h => map (fun t => ptyp h t) (t1 :: t2 :: ts)) sh0 B G F1 G1 K F2 C) with (2 := H)
      as (F & KB & sl & N & SL & L & C').
    { intros h' _. apply typs_framed. }
    split; auto. split; auto. exists sl, xs. auto.
  - intros x H. exact H.
  - (* array *)
    intros x V a s s' b G B Lo RO H. cbn [visit_typ] in H. cbn [refs_typ] in RO.
    apply bind_inv in H. destruct H as ([] & s1 & H1 & H).
    destruct (make_concrete_run _ _ _ _ _ _ G H1) as (_ & F1 & NU & sh0 & G1 & K).
    specialize (NU ltac:(discriminate)).
    assert (sh0 = SArray (ArrF None None None None)) by (apply (proj1 K PArray eq_refl)). subst sh0.
    rewrite (bind_ok _ _ _ _ _ (rd_some _ _ _ _ G1)) in H.
    change (b_loc (set_shape (Some (SArray (ArrF None None None None))) (set_type "array" b))) with (b_loc b) in H.
    rewrite Lo in H.
    apply bind_inv in H. destruct H as (i & s2 & H2 & H).
    apply bind_inv in H. destruct H as ([] & s3 & H3 & H).
    assert (RO1 : refs_ok (heap s1) (List.length (heap s)) (refs_atom x)).
    { eapply refs_frame; [exact RO|auto|exact F1|lia]. }
    destruct (member_visits (fun a => visit_atom E rec x a None) (refs_atom x) (fun h => patom h x)
                s1 s2 s3 i _ _ V RO1 (fun _ I => I) H2 H3) as (F2 & L2 & O2 & T2).
    pose proof (frame_keep _ _ _ _ F2 G1) as G3.
    unfold upd_arr in H. rewrite (bind_ok _ _ _ _ _ (rd_some _ _ _ _ G3)) in H. cbn [b_shape set_shape] in H.
    assert (La : a < List.length (heap s)) by (eapply get_base_lt; eauto).
    assert (UB : upd_base a (set_shape (Some (SArray (set_items (Some i) (ArrF None None None None))))) s3 = (Ok tt, s')).
    { unfold upd_base. rewrite (bind_ok _ _ _ _ _ (rd_some _ _ _ _ G3)). exact H. }
    destruct (upd_base_run _ _ _ _ _ _ G3 UB) as (_ & F4 & L4 & G4).
    assert (F : frame s s' a).
    { eapply frame_trans; [exact F1|]. eapply frame_trans; [apply F2|exact F4]. }
    split; auto. split; [eexists; split; [exact G4|repeat split]|].
    exists i. split.
    { eapply node_after; try eassumption; auto. repeat split. }
    cbn [chain]. exists (List.length (heap s3)). rewrite NU in *. split; [lia|].
    assert (SM : forall y, List.length (heap s) <= y < List.length (heap s3) -> same (heap s3) (heap s') y).
    { intros y Y. apply F4; lia. }
    split. { eapply own_frame; [|exact O2]. apply SM; lia. }
    split; [|lia].
    apply (proj2 (proj2 (tree_frames True pre_ok pre_leaf (heap s3) (heap s'))) x); auto.
    eapply own_agree with (lo := List.length (heap s)) (hi := List.length (heap s3)); eauto; lia.
  - (* optional *)
    intros x V a s s' b G B Lo RO H. cbn [visit_typ] in H. cbn [refs_typ] in RO.
    apply bind_inv in H. destruct H as ([] & s1 & H1 & H).
    destruct (make_concrete_run _ _ _ _ _ _ G H1) as (_ & F1 & _ & sh0 & G1 & K).
    rewrite (bind_ok _ _ _ _ _ (rd_some _ _ _ _ G1)) in H.
    change (b_loc (set_shape (Some sh0) (set_type "union" b))) with (b_loc b) in H. rewrite Lo in H.
    apply bind_inv in H. destruct H as (i & s2 & H2 & H).
    apply bind_inv in H. destruct H as ([] & s3 & H3 & H).
    apply bind_inv in H. destruct H as (nl & s4 & H4 & H).
    assert (RO1 : refs_ok (heap s1) (List.length (heap s)) (refs_atom x)).
    { eapply refs_frame; [exact RO|auto|exact F1|lia]. }
    destruct (member_visits (fun a => visit_atom E rec x a None) (refs_atom x) (fun h => patom h x)
                s1 s2 s3 i _ _ V RO1 (fun _ I => I) H2 H3) as (F2 & L2 & O2 & T2).
    destruct (make_new_run _ _ _ _ _ H4) as (i4 & X & Ei & Li & NU & F4 & b4 & sh4 & G4 & B4 & Lo4 & I1 & I2 & S4 & K4).
    injection X as <-. specialize (NU ltac:(discriminate)).
    assert (sh4 = SNil) by (apply (proj1 K4 PNil eq_refl)). subst sh4.
    assert (C : chain True (heap s4) [(fun lo hi a => patom (heap s4) x lo hi a); (fun _ _ a => node True pre_ok (heap s4) a SNil)]
                  (List.length (heap s1)) (List.length (heap s4)) [i; nl]).
    { cbn [chain]. exists (List.length (heap s3)). split; [lia|]. split.
      { eapply own_frame; [|exact O2]. apply frames_same; auto. lia. }
      split.
      { apply (proj2 (proj2 (tree_frames True pre_ok pre_leaf (heap s3) (heap s4))) x); auto.
        eapply agree_later; eauto. }
      exists (S nl). split; [lia|]. split; [intros _; exists b4; split; auto; lia|]. split; [|lia].
      exists b4. destruct B4 as (B41 & B42 & B43 & B44 & B45). repeat split; auto. }
    assert (F24 : forall c, frame s1 s4 c) by (intros c; eapply frame_trans; [apply F2|apply F4]).
    destruct (union_end s s1 s4 s' a b [i; nl] _
                (fun h => [(fun lo hi a => patom h x lo hi a); (fun _ _ a => node True pre_ok h a SNil)]) sh0 B G F1 G1 K F24 C)
      with (2 := H) as (F & KB & sl & N & SL & L & C').
    { intros h' _. constructor; [|constructor; [|constructor]].
      - intros lo hi c A T. now apply (proj2 (proj2 (tree_frames True pre_ok pre_leaf (heap s4) h')) x).
      - intros lo hi c A T. eapply node_frame; eauto. }
    split; auto. split; auto. exists sl, [i; nl]. auto.
  - (* primitive *)
    intros p a s s' b G B Lo RO H. cbn [visit_atom] in H.
    destruct (make_concrete_run _ _ _ _ _ _ G H) as (_ & F1 & _ & sh0 & G1 & K).
    split; auto. split; [eexists; split; [exact G1|repeat split]|].
    exists sh0. split; [|exact (proj1 K p eq_refl)].
    eapply node_after; try eassumption; auto. repeat split.
  - intros e H. exact H.
  - (* reference *)
    intros nm o a s s' b G B Lo RO H. cbn [visit_atom] in H. unfold visit_ref in H.
    change (ref_text nm o) with (ref_name nm o) in H.
    rewrite (bind_ok _ _ _ _ _ (rd_some _ _ _ _ G)), Lo in H.
    destruct (rv_lookup E (ref_name nm o) loc) as [r|] eqn:LK; [|discriminate].
    destruct (RO _ _ (or_introl eq_refl) LK) as [N RR].
    apply bind_inv in H. destruct H as (rb & s0 & H0 & H). apply rd_ok in H0. destruct H0 as [-> G0].
    destruct (Z.eqb (b_id rb) (b_id b)); [discriminate|].
    apply bind_inv in H. destruct H as ([] & s1 & H1 & H).
    apply rec_resolved in H1; auto. subst s1.
    rewrite (bind_ok _ _ _ _ _ (rd_some _ _ _ _ G0)) in H.
    apply bind_inv in H. destruct H as ([] & s1 & H1 & H).
    destruct (make_concrete_run _ _ _ _ _ _ G H1) as (_ & F1 & _ & sh0 & G1 & K).
    destruct (upd_base_run _ _ _ _ _ _ G1 H) as (_ & F2 & L2 & G2).
    assert (F : frame s s' a) by (eapply frame_trans; eauto).
    split; auto. split; [eexists; split; [exact G2|repeat split]|].
    eexists. split; [exact G2|]. destruct (bare_frame _ _ _ _ _ B G F) as [C1 C2]. split; [|split; auto].
    exists r, sh0. destruct B as (B1 & B2 & B3 & _). repeat split; auto. apply (proj1 (proj2 K)).
Qed.
End Visitor.

(** * Unwrapping a resolved tree *)

Section Unwrapping.
Variable E : renv.
Variable loc : string.
Variable h0 : list cell.
Variable good : addr -> Prop.

Notation pre_leaf := (pre_leaf E loc).
Definition post_leaf (name : string) (b : base) : Prop :=
  exists r sh, rv_lookup E name loc = Some r /\ b_shape b = Some sh /\ shape_at h0 r sh /\ good r.
Definition post_ok (b : base) : Prop := True.

Definition outside (lo hi : nat) (y : addr) : Prop := ~ (lo <= y < hi).

Definition unchanged (s s' : st) (lo hi : nat) (a : addr) : Prop :=
  List.length (heap s') = List.length (heap s)
  /\ forall y, outside lo hi y -> y <> a -> same (heap s) (heap s') y.

Definition targets_ok (h : list cell) (lo hi : nat) (a : addr) (l : list string) : Prop :=
  forall name r, In name l -> rv_lookup E name loc = Some r ->
    outside lo hi r /\ r <> a
    /\ exists rb sh, get_base h r = Some rb /\ b_unwrapped rb = true /\ b_shape rb = Some sh
         /\ (forall e, sh = SBool e -> e = None) /\ shape_at h0 r sh /\ good r.

Definition away (h : list cell) (lo hi : nat) (a : addr) : Prop :=
  outside lo hi a
  /\ forall b, get_base h a = Some b -> outside lo hi (b_inherits b) /\ outside lo hi (b_fdefs b).

Definition unwinds (l : list string) (T T' : list cell -> nat -> nat -> addr -> Prop) : Prop :=
  forall n lo hi a s s' x, T (heap s) lo hi a -> away (heap s) lo hi a ->
    targets_ok (heap s) lo hi a l -> unwrap n a s = (Ok x, s') ->
    x = a /\ unchanged s s' lo hi a /\ T' (heap s') lo hi a.

Lemma targets_sub h lo hi a l lo' hi' a' l' : targets_ok h lo hi a l -> (forall n, In n l' -> In n l) ->
  lo <= lo' -> hi' <= hi -> lo <= a' < hi -> targets_ok h lo' hi' a' l'.
Proof.
  intros T I L1 L2 L3 name r IN LK. destruct (T name r (I _ IN) LK) as (O & N & K). split; [|split; auto].
  - unfold outside in *. lia.
  - unfold outside in *. intros ->. lia.
Qed.

Lemma targets_after h h' lo hi a l : targets_ok h lo hi a l ->
  (forall y, outside lo hi y -> y <> a -> same h h' y) -> targets_ok h' lo hi a l.
Proof.
  intros T S name r IN LK. destruct (T name r IN LK) as (O & N & rb & sh & G & K). split; auto. split; auto.
  exists rb, sh. rewrite (same_base h h'); auto.
Qed.

(** Unwrapping of a shape without alias, link and parents. *)
Lemma unwrap_plain n a s s' x sh b : node True pre_ok (heap s) a sh -> get_base (heap s) a = Some b ->
  unwrap n a s = (Ok x, s') ->
  exists n' s1 s2, n = S n' /\ upd_base a (set_unwrapped true) s = (Ok tt, s1)
    /\ unwrap_target n' (unwrap n') a s1 = (Ok tt, s2) /\ x = a
    /\ (forall b2, get_base (heap s2) a = Some b2 -> b_fdefs b2 = b_fdefs b ->
           get_props (heap s2) (b_fdefs b) = Some [] -> heap s' = heap s2).
Proof.
  intros (b0 & G0 & SH & (A1 & A2 & A3) & C) G H. assert (b0 = b) by congruence. subst b0.
  destruct (C I) as [C1 C2].
  destruct n as [|n]; [discriminate|]. cbn [unwrap] in H.
  rewrite (bind_ok _ _ _ _ _ (rd_some _ _ _ _ G)), SH, A3 in H.
  destruct (upd_base a (set_unwrapped true) s) as [r1 s1] eqn:H1.
  destruct (upd_base_run _ _ _ _ _ _ G H1) as (-> & F1 & L1 & G1).
  rewrite (bind_ok _ _ _ _ _ H1), A1 in H.
  assert (NE : b_inherits b <> a).
  { intros EQ. rewrite EQ in C1. apply get_slice_nth in C1. apply get_base_nth in G. congruence. }
  assert (LT : b_inherits b < List.length (heap s)) by (apply get_slice_nth in C1; eapply nth_error_lt; eauto).
  assert (PP : unwrap_parents n (unwrap n) (inherit n) a s1 = (Ok None, s1)).
  { unfold unwrap_parents. rewrite (bind_ok _ _ _ _ _ (rd_some _ _ _ _ G1)). cbn [b_link set_unwrapped b_inherits].
    rewrite A2. assert (C1' : get_slice (heap s1) (b_inherits b) = Some []).
    { rewrite (same_slice (heap s) (heap s1)); auto. apply F1; auto. }
    now rewrite (bind_ok _ _ _ _ _ (rd_some _ _ _ _ C1')). }
  rewrite (bind_ok _ _ _ _ _ PP) in H.
  apply bind_inv in H. destruct H as ([] & s2 & H2 & H).
  apply bind_inv in H. destruct H as ([] & s3 & H3 & H).
  exists n, s1, s2. split; auto. split; auto. split; auto.
  cbn in H. injection H as <- <-. split; auto. cbn [heap]. intros b2 G2 FD PR.
  unfold unwrap_fdefs in H3. rewrite (bind_ok _ _ _ _ _ (rd_some _ _ _ _ G2)), FD in H3.
  destruct n as [|n]; [discriminate|]. cbn [loop_props] in H3.
  rewrite (bind_ok _ _ _ _ _ (rd_some _ _ _ _ PR)) in H3. simpl in H3. injection H3 as <-. reflexivity.
Qed.

Lemma same_trans h1 h2 h3 x : same h1 h2 x -> same h2 h3 x -> same h1 h3 x.
Proof. unfold same. congruence. Qed.

Definition framed' (h h' : list cell) := framed False h h'.

(** The loop over the members of a union. *)
Lemma members_unwind n a sl e : forall (vs : list ((list cell -> nat -> nat -> addr -> Prop) * (list cell -> nat -> nat -> addr -> Prop))) l,
  Forall (fun v => unwinds l (fst v) (snd v)
            /\ (forall h h', framed True h h' (fst v h) (fst v h'))
            /\ (forall h h', framed False h h' (snd v h) (snd v h'))) vs ->
  forall k i s s' lo hi done xs,
  get_slice (heap s) sl = Some (done ++ xs) -> List.length done = i ->
  outside lo hi a -> outside lo hi sl -> (exists b, get_base (heap s) a = Some b /\ b_shape b = Some (SUnion sl e)) ->
  chain True (heap s) (map (fun v => fst v (heap s)) vs) lo hi xs ->
  targets_ok (heap s) lo hi a l ->
  loop_slice k sl i (fun i item =>
        us <- unwrap n item ;;
        b' <- rd get_base a ;;
        match b_shape b' with
        | Some (SUnion sl' _) => slice_set sl' i us
        | _ => ret tt
        end)%M s = (Ok tt, s') ->
  List.length (heap s') = List.length (heap s)
  /\ (forall y, outside lo hi y -> same (heap s) (heap s') y)
  /\ chain False (heap s') (map (fun v => snd v (heap s')) vs) lo hi xs.
Proof.
  induction vs as [|v vs IH]; intros l FA k i s s' lo hi done xs SL LD Oa Osl BA C TO H;
    (destruct k as [|k]; [discriminate|]); cbn [loop_slice] in H;
    rewrite (bind_ok _ _ _ _ _ (rd_some _ _ _ _ SL)) in H; simpl in C; destruct xs as [|x xs]; try contradiction.
  - rewrite nth_error_app2 in H by lia. replace (i - List.length done) with 0 in H by lia. simpl in H.
    injection H as <-. simpl. repeat split; auto.
  - destruct C as (mid & Lx & O & Px & C). inversion FA as [|? ? (U & FR1 & FR2) FA']; subst.
    pose proof (chain_le _ _ _ _ _ _ C) as Lmid.
    rewrite nth_error_app2 in H by lia. rewrite Nat.sub_diag in H. cbn [nth_error] in H.
    apply bind_inv in H. destruct H as ([] & s1 & H1 & H).
    apply bind_inv in H1. destruct H1 as (us & s2 & H2 & H1).
    assert (AW : away (heap s) (S x) mid x).
    { split; [unfold outside; lia|]. intros b G. destruct (O I) as (b' & G' & O1 & O2).
      assert (b' = b) by congruence. subst. unfold outside. lia. }
    assert (TX : targets_ok (heap s) (S x) mid x l) by (eapply targets_sub; eauto; lia).
    destruct (U _ _ _ _ _ _ _ Px AW TX H2) as (-> & (L2 & S2) & P2).
    assert (Oall : forall y, outside lo hi y -> outside (S x) mid y /\ y <> x).
    { unfold outside. intros y Y. split; lia. }
    destruct BA as (b & G & SH).
    assert (G2 : get_base (heap s2) a = Some b).
    { rewrite (same_base (heap s) (heap s2)); auto. apply S2; apply Oall; auto. }
    rewrite (bind_ok _ _ _ _ _ (rd_some _ _ _ _ G2)), SH in H1. unfold slice_set in H1.
    assert (SL2 : get_slice (heap s2) sl = Some (done ++ x :: xs)).
    { rewrite (same_slice (heap s) (heap s2)); auto. apply S2; apply Oall; auto. }
    rewrite (bind_ok _ _ _ _ _ (rd_some _ _ _ _ SL2)) in H1.
    rewrite nth_error_app2 in H1 by lia. rewrite Nat.sub_diag in H1. cbn [nth_error] in H1.
    unfold write in H1. injection H1 as <-.
    assert (UP : forall d : list addr, upd (List.length d) x (d ++ x :: xs) = d ++ x :: xs).
    { induction d; simpl; congruence. }
    rewrite UP in H.
    set (s3 := St (upd sl (CSlice (done ++ x :: xs)) (heap s2)) (st_shapes s2) (st_nextid s2)) in *.
    assert (S3 : forall y, same (heap s2) (heap s3) y).
    { intros y. unfold same. simpl. destruct (Nat.eq_dec sl y) as [<-|N].
      - apply get_slice_nth in SL2. rewrite SL2. eapply nth_error_upd_eq; eauto.
      - now apply nth_error_upd_neq. }
    assert (L3 : List.length (heap s3) = List.length (heap s2)) by apply upd_length.
    assert (SS : forall y, outside (S x) mid y -> y <> x -> same (heap s) (heap s3) y).
    { intros y Y N. eapply same_trans; [apply S2|apply S3]; auto. }
    assert (SL3 : get_slice (heap s3) sl = Some ((done ++ [x]) ++ xs)).
    { rewrite <- app_assoc. simpl. rewrite (same_slice (heap s2) (heap s3)); auto. }
    assert (LD3 : List.length (done ++ [x]) = S (List.length done)) by (rewrite app_length; simpl; lia).
    assert (Oa3 : outside mid hi a) by (unfold outside in *; lia).
    assert (Osl3 : outside mid hi sl) by (unfold outside in *; lia).
    assert (BA3 : exists b, get_base (heap s3) a = Some b /\ b_shape b = Some (SUnion sl e)).
    { exists b. split; auto. rewrite (same_base (heap s2) (heap s3)); auto. }
    assert (C3 : chain True (heap s3) (map (fun v => fst v (heap s3)) vs) mid hi xs).
    { eapply chain_frame; [| |exact C].
      - clear -FA'. induction FA' as [|v vs (_ & F & _) _ IH]; simpl; constructor; auto.
      - intros y Y. apply SS; unfold outside; lia. }
    assert (TO3 : targets_ok (heap s3) mid hi a l).
    { intros name r IN LK. destruct (TO name r IN LK) as (T1 & T2 & rb & sh & T3 & T4).
      split; [unfold outside in *; lia|]. split; auto. exists rb, sh. split; auto.
      rewrite (same_base (heap s) (heap s3)); auto. apply SS; apply Oall; auto. }
    destruct (IH l FA' k (S (List.length done)) s3 s' mid hi (done ++ [x]) xs SL3 LD3 Oa3 Osl3 BA3 C3 TO3 H)
      as (L4 & S4 & C4).
    split; [lia|]. split.
    { intros y Y. eapply same_trans; [apply SS|apply S4]; try (apply Oall; auto). unfold outside in *; lia. }
    cbn [map chain]. exists mid. split; auto. split; [intros []|]. split; auto.
    eapply FR2; [|exact P2]. split; [|split; [|intros []]].
    + intros y Y. eapply same_trans; [apply S3|]. apply S4. unfold outside; lia.
    + eapply same_trans; [apply S3|]. apply S4. unfold outside; lia.
Qed.

Lemma unwinds_weaken l l' T T' : unwinds l T T' -> (forall n, In n l -> In n l') -> unwinds l' T T'.
Proof.
  intros U I n lo hi a s s' x P A TO H. eapply U; eauto. intros name r IN. apply TO. auto.
Qed.

Lemma node_base c0 ok0 h a sh : node c0 ok0 h a sh -> exists b, get_base h a = Some b.
Proof. intros (b & G & _). eauto. Qed.

(** The root after [set_unwrapped]. *)
Lemma root_step lo hi a s s1 b sh : node True pre_ok (heap s) a sh -> get_base (heap s) a = Some b ->
  away (heap s) lo hi a -> upd_base a (set_unwrapped true) s = (Ok tt, s1) ->
  List.length (heap s1) = List.length (heap s) /\ (forall y, y <> a -> same (heap s) (heap s1) y)
  /\ get_base (heap s1) a = Some (set_unwrapped true b) /\ b_shape b = Some sh
  /\ get_props (heap s) (b_fdefs b) = Some [] /\ b_fdefs b <> a /\ outside lo hi (b_fdefs b).
Proof.
  intros (b0 & G0 & SH & OK & C) G [Oa AW] H. assert (b0 = b) by congruence. subst b0.
  destruct (upd_base_run _ _ _ _ _ _ G H) as (_ & F & L & G'). split; auto.
  destruct (C I) as [C1 C2]. split; [|split; [auto|split; [auto|split; [auto|split]]]].
  - intros y N. destruct (Nat.lt_ge_cases y (List.length (heap s))) as [Ly|Ly]; [apply F; auto|].
    unfold same. rewrite !(proj2 (nth_error_None _ _)); auto. lia.
  - intros EQ. rewrite EQ in C2. apply get_props_nth in C2. apply get_base_nth in G. congruence.
  - now apply AW.
Qed.

Lemma union_unwind l vs : Forall (fun v => unwinds l (fst v) (snd v)
            /\ (forall h h', framed True h h' (fst v h) (fst v h'))
            /\ (forall h h', framed False h h' (snd v h) (snd v h'))) vs ->
  forall n lo hi a s s' x sl xs,
  node True pre_ok (heap s) a (SUnion sl None) -> get_slice (heap s) sl = Some xs -> sl < hi ->
  chain True (heap s) (map (fun v => fst v (heap s)) vs) lo sl xs ->
  away (heap s) lo hi a -> targets_ok (heap s) lo hi a l -> unwrap n a s = (Ok x, s') ->
  x = a /\ unchanged s s' lo hi a /\ node False post_ok (heap s') a (SUnion sl None)
  /\ get_slice (heap s') sl = Some xs /\ chain False (heap s') (map (fun v => snd v (heap s')) vs) lo sl xs.
Proof.
  intros FA n lo hi a s s' x sl xs N SL Lsl C AW TO H. destruct (node_base _ _ _ _ _ N) as (b & G).
  destruct (unwrap_plain _ _ _ _ _ _ _ N G H) as (n' & s1 & s2 & -> & H1 & H2 & -> & FIN).
  destruct (root_step lo hi _ _ _ _ _ N G AW H1) as (L1 & S1 & G1 & SH & PR & NE & OFD).
  pose proof (chain_le _ _ _ _ _ _ C) as LL. destruct AW as [Oa AW].
  assert (Nsl : sl <> a).
  { intros ->. apply get_slice_nth in SL. apply get_base_nth in G. congruence. }
  unfold unwrap_target in H2. rewrite (bind_ok _ _ _ _ _ (rd_some _ _ _ _ G1)) in H2. cbn [b_shape set_unwrapped] in H2.
  rewrite SH in H2.
  assert (S1' : forall y, lo <= y < hi -> same (heap s) (heap s1) y).
  { intros y Y. apply S1. intros ->. unfold outside in Oa. lia. }
  destruct (members_unwind n' a sl None vs l FA n' 0 s1 s2 lo sl [] xs) as (L2 & S2 & C2); auto.
  { simpl. rewrite (same_slice (heap s) (heap s1)); auto. }
  { unfold outside in *. lia. }
  { unfold outside in *. lia. }
  { exists (set_unwrapped true b). auto. }
  { eapply chain_frame; [| |exact C].
    - clear -FA. induction FA as [|v vs (_ & F & _) _ IH]; simpl; constructor; auto.
    - intros y Y. apply S1'. lia. }
  { intros name r IN LK. destruct (TO name r IN LK) as (T1 & T2 & rb & sh & T3 & T4).
    split; [unfold outside in *; lia|]. split; auto. exists rb, sh. split; auto.
    rewrite (same_base (heap s) (heap s1)); auto. }
  assert (G2 : get_base (heap s2) a = Some (set_unwrapped true b)).
  { rewrite (same_base (heap s1) (heap s2)); auto. apply S2. unfold outside in *. lia. }
  assert (SS : forall y, outside lo sl y -> y <> a -> same (heap s) (heap s2) y).
  { intros y Y NY. eapply same_trans; [apply S1|apply S2]; auto. }
  rewrite (FIN _ G2 eq_refl) in *.
  2:{ rewrite (same_props (heap s) (heap s2)); auto. apply SS; auto. unfold outside in *. lia. }
  split; auto. split.
  { split; [rewrite (FIN _ G2 eq_refl); [lia|]|].
    - rewrite (same_props (heap s) (heap s2)); auto. apply SS; auto. unfold outside in *. lia.
    - intros y Y NY. rewrite (FIN _ G2 eq_refl).
      + apply SS; auto. unfold outside in *. lia.
      + rewrite (same_props (heap s) (heap s2)); auto. apply SS; auto. unfold outside in *. lia. }
  split; [|split; auto].
  - exists (set_unwrapped true b). split; auto. split; auto. split; [exact I|intros []].
  - rewrite (same_slice (heap s) (heap s2)); auto. apply SS; auto. unfold outside. lia.
Qed.

Notation ptree h e := (tree True pre_ok pre_leaf h e).
Notation ptyp h t := (tree_typ True pre_ok pre_leaf h t).
Notation patom h x := (tree_atom True pre_ok pre_leaf h x).
Notation qtree h e := (tree False post_ok post_leaf h e).
Notation qtyp h t := (tree_typ False post_ok post_leaf h t).
Notation qatom h x := (tree_atom False post_ok post_leaf h x).

Lemma unwind_all :
  (forall e, unwinds (refs e) (fun h => ptree h e) (fun h => qtree h e))
  /\ (forall t, unwinds (refs_typ t) (fun h => ptyp h t) (fun h => qtyp h t))
  /\ (forall x, unwinds (refs_atom x) (fun h => patom h x) (fun h => qatom h x)).
Proof.
  apply trees_all.
  - intros t H. exact H.
  - (* union *)
    intros t1 t2 ts U1 U2 US n lo hi a s s' x (sl & xs & N & SL & L & C) AW TO H. cbn [refs] in TO.
    set (l := refs_typ t1 ++ refs_typ t2 ++ flat_map refs_typ ts) in *.
    set (vs := map (fun t => ((fun h => ptyp h t), (fun h => qtyp h t))) (t1 :: t2 :: ts)).
    assert (FA : Forall (fun v => unwinds l (fst v) (snd v)
            /\ (forall h h', framed True h h' (fst v h) (fst v h'))
            /\ (forall h h', framed False h h' (snd v h) (snd v h'))) vs).
    { apply Forall_forall. intros v I. apply in_map_iff in I. destruct I as (t & <- & I). cbn [fst snd]. split.
      - assert (UT : unwinds (refs_typ t) (fun h => ptyp h t) (fun h => qtyp h t)).
        { destruct I as [<-|[<-|I]]; auto. rewrite Forall_forall in US. auto. }
        eapply unwinds_weaken; [exact UT|]. intros nm J. unfold l. rewrite !in_app_iff.
        destruct I as [<-|[<-|I]]; auto. right. right. apply in_flat_map. eauto.
      - split; intros h h'; apply (proj1 (proj2 (tree_frames _ _ _ h h'))). }
    assert (M1 : forall h, map (fun v => fst v h) vs = map (fun t => ptyp h t) (t1 :: t2 :: ts)).
    { intros h. unfold vs. rewrite map_map. reflexivity. }
    assert (M2 : forall h, map (fun v => snd v h) vs = map (fun t => qtyp h t) (t1 :: t2 :: ts)).
    { intros h. unfold vs. rewrite map_map. reflexivity. }
    assert (C' : chain True (heap s) (map (fun v => fst v (heap s)) vs) lo sl xs) by (rewrite M1; exact C).
    destruct (union_unwind l vs FA n lo hi a s s' x sl xs N SL L C' AW TO H) as (-> & UN & N' & SL' & C2).
    split; auto. split; auto. exists sl, xs. split; auto. split; auto. split; auto. rewrite M2 in C2. exact C2.
  - intros x H. exact H.
  - (* array *)
    intros y U n lo hi a s s' x (i & N & C) AW TO H. cbn [refs_typ] in TO.
    cbn [chain] in C. destruct C as (mid & Li & O & P & Lm).
    destruct (node_base _ _ _ _ _ N) as (b & G).
    destruct (unwrap_plain _ _ _ _ _ _ _ N G H) as (n' & s1 & s2 & -> & H1 & H2 & -> & FIN).
    destruct (root_step lo hi _ _ _ _ _ N G AW H1) as (L1 & S1 & G1 & SH & PR & NE & OFD).
    destruct AW as [Oa AW].
    unfold unwrap_target in H2. rewrite (bind_ok _ _ _ _ _ (rd_some _ _ _ _ G1)) in H2. cbn [b_shape set_unwrapped] in H2.
    rewrite SH in H2. cbn [a_items] in H2.
    apply bind_inv in H2. destruct H2 as (us & s3 & H3 & H2).
    assert (S1' : forall y, lo <= y < hi -> same (heap s) (heap s1) y).
    { intros z Z. apply S1. intros ->. unfold outside in Oa. lia. }
    assert (AW3 : away (heap s1) (S i) mid i).
    { split; [unfold outside; lia|]. intros b' G'. destruct (O I) as (b0 & G0 & O1 & O2).
      rewrite (same_base (heap s) (heap s1)) in G' by (apply S1'; lia).
      assert (b0 = b') by congruence. subst. unfold outside. lia. }
    assert (P1 : patom (heap s1) y (S i) mid i).
    { apply (proj2 (proj2 (tree_frames True pre_ok pre_leaf (heap s) (heap s1))) y); auto.
      eapply own_agree with (lo := lo) (hi := mid); eauto; try lia. intros z Z. apply S1'; lia. }
    assert (TO3 : targets_ok (heap s1) (S i) mid i (refs_atom y)).
    { intros name r IN LK. destruct (TO name r IN LK) as (T1 & T2 & rb & sh & T3 & T4).
      split; [unfold outside in *; lia|]. split; [unfold outside in *; lia|]. exists rb, sh. split; auto.
      rewrite (same_base (heap s) (heap s1)); auto. }
    destruct (U _ _ _ _ _ _ _ P1 AW3 TO3 H3) as (-> & (L3 & S3) & P3).
    assert (G3 : get_base (heap s3) a = Some (set_unwrapped true b)).
    { rewrite (same_base (heap s1) (heap s3)); auto. apply S3; unfold outside in *; lia. }
    assert (UB : upd_base a (set_shape (Some (SArray (ArrF (Some i) None None None)))) s3 = (Ok tt, s2)).
    { unfold upd_arr in H2. unfold upd_base. rewrite (bind_ok _ _ _ _ _ (rd_some _ _ _ _ G3)) in H2.
      rewrite (bind_ok _ _ _ _ _ (rd_some _ _ _ _ G3)). cbn [b_shape set_unwrapped] in H2. rewrite SH in H2. exact H2. }
    destruct (upd_base_run _ _ _ _ _ _ G3 UB) as (_ & F4 & L4 & G4).
    assert (S4 : forall z, z <> a -> same (heap s3) (heap s2) z).
    { intros z NZ. destruct (Nat.lt_ge_cases z (List.length (heap s3))) as [Ly|Ly]; [apply F4; auto|].
      unfold same. rewrite !(proj2 (nth_error_None _ _)); auto. lia. }
    assert (SS : forall z, outside lo hi z -> z <> a -> same (heap s) (heap s2) z).
    { intros z Z NZ. eapply same_trans; [apply S1; auto|]. eapply same_trans; [apply S3|apply S4; auto];
        unfold outside in *; lia. }
    assert (EQ : heap s' = heap s2).
    { apply (FIN _ G4 eq_refl). rewrite (same_props (heap s) (heap s2)); auto. }
    split; auto. split.
    { split; [rewrite EQ; lia|]. intros z Z NZ. rewrite EQ. auto. }
    rewrite EQ. exists i. split.
    { eexists. split; [exact G4|]. split; [reflexivity|]. split; [exact I|intros []]. }
    cbn [chain]. exists mid. split; auto. split; [intros []|]. split; auto.
    apply (proj2 (proj2 (tree_frames False post_ok post_leaf (heap s3) (heap s2))) y); auto.
    split; [|split; [|intros []]]; [intros z Z|]; apply S4; unfold outside in *; lia.
  - (* optional *)
    intros y U n lo hi a s s' x (sl & xs & N & SL & L & C) AW TO H. cbn [refs_typ] in TO.
    set (vs := [((fun h lo hi a => patom h y lo hi a), (fun h lo hi a => qatom h y lo hi a));
                ((fun h (lo hi : nat) a => node True pre_ok h a SNil), (fun h (lo hi : nat) a => node False post_ok h a SNil))]).
    assert (FA : Forall (fun v => unwinds (refs_atom y) (fst v) (snd v)
            /\ (forall h h', framed True h h' (fst v h) (fst v h'))
            /\ (forall h h', framed False h h' (snd v h) (snd v h'))) vs).
    { constructor; [|constructor; [|constructor]]; cbn [fst snd].
      - split; [exact U|]. split; intros h h'; apply (proj2 (proj2 (tree_frames _ _ _ h h'))).
      - split; [|split; intros h h' lo' hi' a' A T; eapply node_frame; eauto].
        intros n0 lo0 hi0 a0 s0 s0' x0 N0 AW0 TO0 H0. destruct (node_base _ _ _ _ _ N0) as (b0 & G0).
        destruct (unwrap_plain _ _ _ _ _ _ _ N0 G0 H0) as (n' & s1 & s2 & -> & H1 & H2 & -> & FIN).
        destruct (root_step lo0 hi0 _ _ _ _ _ N0 G0 AW0 H1) as (L1 & S1 & G1 & SH & PR & NE & OFD).
        unfold unwrap_target in H2. rewrite (bind_ok _ _ _ _ _ (rd_some _ _ _ _ G1)) in H2.
        cbn [b_shape set_unwrapped] in H2. rewrite SH in H2. injection H2 as <-.
        assert (EQ : heap s0' = heap s1).
        { apply (FIN _ G1 eq_refl). rewrite (same_props (heap s0) (heap s1)); auto. }
        split; auto. split.
        + split; [rewrite EQ; lia|]. intros z Z NZ. rewrite EQ. auto.
        + rewrite EQ. exists (set_unwrapped true b0). split; auto. split; auto. split; [exact I|intros []]. }
    assert (C' : chain True (heap s) (map (fun v => fst v (heap s)) vs) lo sl xs) by exact C.
    destruct (union_unwind (refs_atom y) vs FA n lo hi a s s' x sl xs N SL L C' AW TO H) as (-> & UN & N' & SL' & C2).
    split; auto. split; auto. exists sl, xs. auto.
  - (* primitive *)
    intros p n lo hi a s s' x (sh & N & PS) AW TO H. destruct (node_base _ _ _ _ _ N) as (b & G).
    destruct (unwrap_plain _ _ _ _ _ _ _ N G H) as (n' & s1 & s2 & -> & H1 & H2 & -> & FIN).
    destruct (root_step lo hi _ _ _ _ _ N G AW H1) as (L1 & S1 & G1 & SH & PR & NE & OFD).
    assert (EQ1 : heap s2 = heap s1).
    { unfold unwrap_target in H2. rewrite (bind_ok _ _ _ _ _ (rd_some _ _ _ _ G1)) in H2.
      cbn [b_shape set_unwrapped] in H2. rewrite SH in H2.
      destruct p; simpl in PS; try (subst sh; injection H2 as <-; reflexivity).
      - (* object *) subst sh. cbn [o_props unwrap_optmap] in H2.
        rewrite (bind_ok _ _ s1 tt s1 eq_refl) in H2.
        rewrite (bind_ok _ _ _ _ _ (rd_some _ _ _ _ G1)) in H2. cbn [b_shape set_unwrapped] in H2.
        rewrite SH in H2. injection H2 as <-. reflexivity.
      - (* union *) destruct PS as (sl & -> & Lsl & SL).
        assert (SL1 : get_slice (heap s1) sl = Some []).
        { rewrite (same_slice (heap s) (heap s1)); auto. apply S1. intros ->. destruct AW as [Oa _].
          unfold outside in Oa. lia. }
        destruct n' as [|n']; [discriminate|]. cbn [loop_slice] in H2.
        rewrite (bind_ok _ _ _ _ _ (rd_some _ _ _ _ SL1)) in H2. injection H2 as <-. reflexivity. }
    assert (G2 : get_base (heap s2) a = Some (set_unwrapped true b)) by (rewrite EQ1; exact G1).
    assert (EQ : heap s' = heap s1).
    { rewrite <- EQ1. apply (FIN _ G2 eq_refl). rewrite EQ1. rewrite (same_props (heap s) (heap s1)); auto. }
    split; auto. split.
    { split; [rewrite EQ; lia|]. intros z Z NZ. rewrite EQ. auto. }
    rewrite EQ. exists sh. split.
    { exists (set_unwrapped true b). split; auto. split; auto. split; [exact I|intros []]. }
    destruct p; auto. destruct PS as (sl & -> & Lsl & SL). exists sl. split; auto. split; auto.
    rewrite (same_slice (heap s) (heap s1)); auto. apply S1. intros ->. destruct AW as [Oa _].
    unfold outside in Oa. lia.
  - intros e H. exact H.
  - (* reference *)
    intros nm o n lo hi a s s' x (b & G & (r & sh & LK & AL & UW & SH & BL) & C) AW TO H.
    destruct (TO _ _ (or_introl eq_refl) LK) as (Or & NR & rb & rsh & GR & UR & SR & BR & HR & GO).
    destruct n as [|n]; [discriminate|]. cbn [unwrap] in H.
    rewrite (bind_ok _ _ _ _ _ (rd_some _ _ _ _ G)), SH, UW in H.
    destruct (upd_base a (set_unwrapped true) s) as [r1 s1] eqn:H1.
    destruct (upd_base_run _ _ _ _ _ _ G H1) as (-> & F1 & L1 & G1).
    rewrite (bind_ok _ _ _ _ _ H1), AL in H.
    apply bind_inv in H. destruct H as (us & s2 & H2 & H).
    assert (GR1 : get_base (heap s1) r = Some rb).
    { rewrite (same_base (heap s) (heap s1)); auto. apply F1; auto. eapply get_base_lt; eauto. }
    destruct n as [|n]; [discriminate|]. cbn [unwrap] in H2.
    rewrite (bind_ok _ _ _ _ _ (rd_some _ _ _ _ GR1)), SR, UR in H2. injection H2 as <- <-.
    apply bind_inv in H. destruct H as ([] & s3 & H3 & H). injection H3 as <-.
    unfold alias_to in H.
    assert (G3 : rd get_base a (St (heap s1) (st_shapes s1 ++ [a]) (st_nextid s1))
                 = (Ok (set_unwrapped true b), St (heap s1) (st_shapes s1 ++ [a]) (st_nextid s1))) by (apply rd_some; exact G1).
    rewrite (bind_ok _ _ _ _ _ G3) in H. clear G3.
    assert (G3 : rd get_base r (St (heap s1) (st_shapes s1 ++ [a]) (st_nextid s1))
                 = (Ok rb, St (heap s1) (st_shapes s1 ++ [a]) (st_nextid s1))) by (apply rd_some; exact GR1).
    rewrite (bind_ok _ _ _ _ _ G3) in H. clear G3.
    cbn [b_shape set_unwrapped] in H. rewrite SH, SR in H.
    destruct (alias_shape sh rsh) as [sh'| | |] eqn:AS; try discriminate.
    assert (SHE : sh' = rsh).
    { destruct rsh as [| | | | | |e| | | | | | | | | |];
        try (eapply alias_shape_same; [exact AS|intros; discriminate]).
      destruct sh as [| | | | | |e0| | | | | | | | | |]; simpl in AS; try discriminate.
      rewrite (BL e0 eq_refl), (BR e eq_refl) in *. now injection AS. }
    subst sh'. unfold bind, write, ret in H. injection H as <- <-. cbn [heap].
    split; auto. split.
    { split; [cbn [heap]; rewrite upd_length; auto|]. intros z Z NZ. unfold same. cbn [heap].
      rewrite nth_error_upd_neq by auto. destruct (Nat.lt_ge_cases z (List.length (heap s))) as [Ly|Ly]; [apply F1; auto|].
      rewrite !(proj2 (nth_error_None _ _)); auto. lia. }
    eexists. split.
    { apply get_base_nth. eapply nth_error_upd_eq. apply get_base_nth. exact G1. }
    split; [|intros []]. exists r, rsh. split; auto.
Qed.
End Unwrapping.

(** * Resolution, then unwrapping *)

Lemma resolve_resolved n E r s x s' : resolved (heap s) r -> resolve n E r s = (Ok x, s') -> s' = s.
Proof.
  intros (b & sh & G & SH & N) H. destruct n as [|n]; [discriminate|]. cbn [resolve] in H.
  rewrite (bind_ok _ _ _ _ _ (rd_some _ _ _ _ G)), SH in H.
  destruct sh; try (injection H as _ <-; reflexivity). now elim N.
Qed.

Theorem expression_denotes E k n a e s s1 s2 r b :
  get_base (heap s) a = Some b -> b_shape b = Some SUnknown -> bare (heap s) b ->
  b_type b <> "composite" -> read_type (b_type b) = Some e -> rv_facets E a = None ->
  (forall name x, In name (refs e) -> rv_lookup E name (b_loc b) = Some x -> x <> a /\ finished (heap s) x) ->
  resolve k E a s = (Ok tt, s1) -> unwrap n a s1 = (Ok r, s2) ->
  r = a /\ forall O v, valid O (heap s2) a v
    <-> denotes O (fun name w => exists x, rv_lookup E name (b_loc b) = Some x /\ valid O (heap s2) x w) e v.
Proof.
  intros G SH B NC RT FS RF H U.
  destruct k as [|k]; [discriminate|]. cbn [resolve] in H.
  rewrite (bind_ok _ _ _ _ _ (rd_some _ _ _ _ G)), SH in H.
  pose proof B as (B1 & B2 & B3 & _). rewrite B2 in H.
  destruct (String.eqb_spec (b_type b) "composite"); [contradiction|]. rewrite RT, FS in H.
  assert (RO : refs_ok E (b_loc b) (heap s) a (refs e)).
  { intros name x I L. destruct (RF name x I L) as (N & rb & sh & Gx & Sx & NU & _). split; auto. exists rb, sh. auto. }
  destruct (proj1 (visit_all E (resolve k E) (resolve_resolved k E) (b_loc b)) e a s s1 b G B eq_refl RO H)
    as (F & (b1 & G1 & K1 & K2 & K3) & T).
  set (lo := List.length (heap s)) in *. set (hi := List.length (heap s1)) in *.
  assert (La : a < lo) by (eapply get_base_lt; eauto).
  assert (AW : away (heap s1) lo hi a).
  { split; [unfold outside; lia|]. intros b' G'. assert (b' = b1) by congruence. subst b'. rewrite K1, K2.
    destruct (bare_lt _ _ B). unfold outside, lo. lia. }
  set (good := fun x => outside lo hi x /\ x <> a).
  assert (TO : targets_ok E (b_loc b) (heap s1) good (heap s1) lo hi a (refs e)).
  { intros name x I L. destruct (RF name x I L) as (N & rb & sh & Gx & Sx & NU & UW & BL).
    pose proof (get_base_lt _ _ _ Gx). assert (Ox : outside lo hi x) by (unfold outside, lo; lia). split; auto. split; auto.
    assert (Gx1 : get_base (heap s1) x = Some rb).
    { rewrite (same_base (heap s) (heap s1)); auto. apply F; auto. }
    exists rb, sh. split; auto. split; auto. split; auto. split; auto. split; [exists rb; auto|]. split; auto. }
  destruct (proj1 (unwind_all E (b_loc b) (heap s1) good) e n lo hi a s1 s2 r T AW TO U) as (-> & (L2 & S2) & T2).
  split; auto. intros O v.
  refine (proj1 (tree_means O (heap s2) _ False post_ok (post_leaf E (b_loc b) (heap s1) good) _) e lo hi a v T2).
  intros name b' (x & sh & LK & Sb & (bx & Gx & Sx) & Ox & Nx). exists sh. split; auto. intros w.
  assert (Gx2 : get_base (heap s2) x = Some bx).
  { rewrite (same_base (heap s1) (heap s2)); auto. }
  assert (SA : shape_at (heap s2) x sh) by (exists bx; auto).
  rewrite <- (valid_shape O (heap s2) x sh w SA). split; [eauto|]. intros (x' & LK' & V).
  assert (x' = x) by congruence. now subst x'.
Qed.
