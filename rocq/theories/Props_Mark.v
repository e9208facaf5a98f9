(** Property theorems about recursion marking (C28, C29). *)
From Coq Require Import ZArith List String Bool Lia.
From Verif Require Import Base Scalars Heap Heap_lemmas Validate Spec_Validate Spec_Model Model_check
  Spec_Mark Mark_proofs Mark_values Props_Validate Props_Inherit.
Import ListNotations.
Open Scope string_scope.
Open Scope list_scope.
Open Scope nat_scope.

(** Decision procedures for the hypotheses, for the examples. *)
Fixpoint nodup_b (l : list string) : bool :=
  match l with [] => true | x :: l' => negb (existsb (String.eqb x) l') && nodup_b l' end.
Definition keyed_b (h : list cell) : bool :=
  forallb (fun c => match c with CProps l => nodup_b (map fst l) | _ => true end) h.
Definition flat_b (h : list cell) : bool :=
  forallb (fun b => match get_props h (b_fdefs b) with
    | Some m => forallb (fun kp => match get_base h (p_base (snd kp)) with
        | Some b' => match get_props h (b_fdefs b') with Some [] => true | _ => false end
        | None => true end) m
    | None => true end) (bases_of h).
Definition clear_b (h : list cell) : bool := forallb (fun b => negb (b_visited b)) (bases_of h).

Lemma nodup_b_ok l : nodup_b l = true -> NoDup l.
Proof.
  induction l as [|x l IH]; simpl; intros H; constructor; apply andb_prop in H; destruct H as [H1 H2]; auto.
  intros I. apply negb_true_iff in H1.
  assert (existsb (String.eqb x) l = true); [|congruence]. apply existsb_exists. exists x. split; auto.
  apply String.eqb_refl.
Qed.
Lemma keyed_b_ok h : keyed_b h = true -> maps_keyed h.
Proof.
  unfold keyed_b. rewrite forallb_forall. intros H m l G. apply get_props_nth in G. apply nth_error_In in G.
  apply H in G. now apply nodup_b_ok.
Qed.
Lemma flat_b_ok h : flat_b h = true -> facets_flat h.
Proof.
  unfold flat_b. rewrite forallb_forall. intros H a b m k p b' G E I G'. apply in_bases_of in G.
  apply H in G. rewrite E in G. rewrite forallb_forall in G. specialize (G _ I). simpl in G. rewrite G' in G.
  destruct (get_props h (b_fdefs b')) as [[|]|]; try discriminate. reflexivity.
Qed.
Lemma clear_b_ok h : clear_b h = true -> forall a b, get_base h a = Some b -> b_visited b = false.
Proof.
  unfold clear_b. rewrite forallb_forall. intros H a b G. apply in_bases_of in G. apply H in G.
  now apply negb_true_iff in G.
Qed.

Lemma wf_fdefs_ok h : wf_heap h -> fdefs_ok h.
Proof. intros W a b G. destruct (W a b G) as [(_ & E & _) _]. exact E. Qed.
Lemma wf_closed h : wf_heap h -> closed h.
Proof.
  intros W a sh (b & G & Sb). destruct (W a b G) as [(_ & _ & _ & _ & sh' & S' & C) _]. congruence.
Qed.
Lemma clear_flags h : (forall a b, get_base h a = Some b -> b_visited b = false) -> forall x, flag h x = false.
Proof. intros H x. unfold flag. destruct (get_base h x) eqn:E; [eapply H; eauto|reflexivity]. Qed.

(** * C28 *)

(** FindAndMarkRecursion, and the walk over all types, return. *)
Theorem C28_terminates : forall s,
  wf_heap (heap s) -> maps_keyed (heap s) -> facets_flat (heap s) ->
  exists N, forall n, N <= n ->
    (forall a, fst (mark n a s) <> OutOfFuel) /\ (forall l, fst (mark_all n l s) <> OutOfFuel).
Proof.
  intros s W K F. destruct (mark_terminates s F (wf_fdefs_ok _ W) K) as [N H].
  destruct (mark_all_terminates s F (wf_fdefs_ok _ W) K) as [N' H'].
  exists (N + N'). intros n L. split; [intros a; apply H|intros l; apply H']; lia.
Qed.
Print Assumptions C28_terminates.

(** After the walk over all types, the descent from each of them is finite. *)
Theorem C28_finite : forall n l s s' a,
  maps_keyed (heap s) -> (forall x b, get_base (heap s) x = Some b -> b_visited b = false) ->
  mark_all n l s = (Ok tt, s') -> In a l -> finite_descent (heap s') a.
Proof.
  exact (fun n l s s' a K F E I =>
    ends_descent _ _ (proj2 (proj2 (mark_all_good n l s (Ok tt) s' K E) eq_refl (clear_flags _ F)) a I)).
Qed.
Print Assumptions C28_finite.

(** The same for a single call, whatever the flags are. A call on a shape being
    visited returns a recursive shape, which has no components. *)
Theorem C28_finite_result : forall n a s r s',
  maps_keyed (heap s) -> mark n a s = (Ok r, s') ->
  match r with
  | None => finite_descent (heap s') a
  | Some y => finite_descent (heap s') y /\ shape_at (heap s') y (SRec a)
  end.
Proof.
  exact (fun n a s r => match r with
    | None => fun s' K E => mark_finite n a s s' K E
    | Some y => fun s' K E => mark_finite_some n a s y s' K E end).
Qed.
Print Assumptions C28_finite_result.

(** Check returns for every shape of finite descent. *)
Theorem C28_check_terminates : forall O h a, finite_descent h a ->
  exists N, forall n, N <= n -> check n O h a <> OutOfFuel.
Proof. exact check_ends. Qed.
Print Assumptions C28_check_terminates.

(** * C29 *)

(** For every shape of the model and every value, validation comes to the same
    outcome (accepted, refused, panic) before and after, or to none in both. *)
Theorem C29_same_values : forall n a s q s' O x b v r,
  wf_heap (heap s) -> maps_keyed (heap s) -> mark n a s = (q, s') -> get_base (heap s) x = Some b ->
  r <> OutOfFuel ->
  ((exists m, validate m O (heap s) x v = r) <-> (exists m, validate m O (heap s') x v = r)).
Proof.
  exact (fun n a s q s' O x b v r W K E G N =>
    match W x b G with
    | conj (conj _ (conj _ (conj _ (conj _ (ex_intro _ sh (conj Es _)))))) _ =>
        mark_same_outcome n a s q s' O x sh v r (wf_closed _ W) K E (ex_intro _ b (conj G Es)) N
    end).
Qed.
Print Assumptions C29_same_values.

(** The recursive shape that a call returns accepts what the shape accepts. *)
Theorem C29_result : forall n a s y s' O b v r,
  wf_heap (heap s) -> maps_keyed (heap s) -> mark n a s = (Ok (Some y), s') -> get_base (heap s) a = Some b ->
  r <> OutOfFuel ->
  ((exists m, validate m O (heap s) a v = r) <-> (exists m, validate m O (heap s') y v = r)).
Proof.
  exact (fun n a s y s' O b v r W K E G N =>
    match W a b G with
    | conj (conj _ (conj _ (conj _ (conj _ (ex_intro _ sh (conj Es _)))))) _ =>
        mark_result_outcome n a s y s' O sh v r (wf_closed _ W) K E (ex_intro _ b (conj G Es)) N
    end).
Qed.
Print Assumptions C29_result.

(** What the walk changes: components may be replaced by recursive shapes that
    stand for them and the flag of the walk may change, but nothing else in the
    shapes, maps and slices that were there; new base shapes are recursive. *)
Theorem C29_only_back_edges : forall n a s q s', maps_keyed (heap s) -> mark n a s = (q, s') ->
  (forall x b, get_base (heap s) x = Some b ->
     exists b', get_base (heap s') x = Some b' /\ same_base (heap s') b b')
  /\ (forall m, same_map (heap s) (heap s') m) /\ (forall sl, same_slice (heap s) (heap s') sl)
  /\ (forall f l, get_facets (heap s) f = Some l -> get_facets (heap s') f = Some l)
  /\ (forall d l, get_dt (heap s) d = Some l -> get_dt (heap s') d = Some l)
  /\ (forall x b, List.length (heap s) <= x -> get_base (heap s') x = Some b ->
        exists hd, b_shape b = Some (SRec hd)).
Proof. exact mark_writes. Qed.
Print Assumptions C29_only_back_edges.

(** * Examples *)

(** [Node: {properties: {next?: Node, kids: {type: array, items: Node},
    alt: string | Node}}; Other: {properties: {n: Node}}], unwrapped. *)
Definition arr (i : addr) : shape := SArray (ArrF (Some i) None None None).
Definition m28s : st := model
  [Decl "Node" "object" (obj 28) [] None; Decl "next" "object" (oempty None) [] (Some 0);
   Decl "kids" "array" (arr 4) [] None; Decl "alt" "union" (SUnion 29 None) [] None;
   Decl "" "string" (SStr estr) [] None; Decl "" "object" (oempty None) [] (Some 0);
   Decl "Other" "object" (obj 30) [] None]
  [CProps [("next", Prop_ "next" 4 false); ("kids", Prop_ "kids" 8 true); ("alt", Prop_ "alt" 12 false)];
   CSlice [16; 20]; CProps [("n", Prop_ "n" 0 true)]].
Definition m28 : st := snd ((unwrap 20 0 ;;; unwrap 20 24)%M m28s).

Example C28_case : wf_heap (heap m28) /\ maps_keyed (heap m28) /\ facets_flat (heap m28)
  /\ (forall x b, get_base (heap m28) x = Some b -> b_visited b = false)
  /\ fst (mark_all 20 [0; 24] m28) = Ok tt
  /\ ~ finite_descent (heap m28) 0.
Proof.
  split; [apply wf_b_sound; vm_compute; reflexivity|].
  split; [apply keyed_b_ok; vm_compute; reflexivity|].
  split; [apply flat_b_ok; vm_compute; reflexivity|].
  split; [apply clear_b_ok; vm_compute; reflexivity|].
  split; [vm_compute; reflexivity|].
  assert (G : exists b b' l p, get_base (heap m28) 0 = Some b /\ b_shape b = Some (obj 28)
     /\ get_base (heap m28) 4 = Some b' /\ b_shape b' = Some (obj 28)
     /\ get_props (heap m28) 28 = Some (("next", p) :: l) /\ p_base p = 4).
  { do 4 eexists. split; [vm_compute; reflexivity|]. split; [reflexivity|].
    split; [vm_compute; reflexivity|]. split; [reflexivity|].
    split; [vm_compute; reflexivity|reflexivity]. }
  destruct G as (b & b' & l & p & G1 & G2 & G3 & G4 & G5 & Ep).
  assert (D : forall x bx, get_base (heap m28) x = Some bx -> b_shape bx = Some (obj 28) ->
    descends (heap m28) x 4).
  { intros x bx E1 E2. rewrite <- Ep. apply ds_child with (obj 28); [exists bx; auto|intros hd; unfold obj; discriminate|].
    apply (ch_prop _ _ (("next", p) :: l) "next" p); [right; exists 28; auto|left; reflexivity]. }
  intros A0. assert (A : finite_descent (heap m28) 4) by (exact (Acc_inv A0 (D _ _ G1 G2))). clear A0.
  assert (D4 : descends (heap m28) 4 4) by (eapply D; eauto).
  clear - A D4. remember 4 as z. clear Heqz. induction A as [x _ IH]. exact (IH x D4 D4).
Qed.

(** Afterwards 0 accepts a nested value, and refuses one that is wrong inside. *)
Example C29_case : let s' := snd (mark_all 20 [0; 24] m28) in
  let good := GMap [("kids", GArr [GMap [("kids", GArr [])]]); ("alt", GMap [("kids", GArr [])])] in
  let bad := GMap [("kids", GArr [GMap [("kids", GNil)]])] in
  validate 20 exO (heap m28) 24 (GMap [("n", good)]) = Ok tt
  /\ validate 20 exO (heap s') 24 (GMap [("n", good)]) = Ok tt
  /\ validate 20 exO (heap m28) 24 (GMap [("n", bad)]) = Err
  /\ validate 20 exO (heap s') 24 (GMap [("n", bad)]) = Err.
Proof.
  cbv zeta. split; [vm_compute; reflexivity|]. split; [vm_compute; reflexivity|].
  split; vm_compute; reflexivity.
Qed.
