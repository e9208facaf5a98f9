(** Property theorems about structural validation and Check
    (C07-C12, C30-C32). *)
From Coq Require Import ZArith List String Bool Lia.
From Coq Require Import Floats.SpecFloat.
From Verif Require Import Base Scalars Spec_Scalars Scalars_proofs Heap Validate Spec_Validate
  Validate_proofs Check_proofs.
Import ListNotations.
Open Scope string_scope.
Open Scope Z_scope.

(** An environment for the examples: prefix "regular expressions", JSON by
    kind, a length hash. *)
Definition exO : oracle := {|
  o_match := fun p s => String.prefix p s;
  o_time := fun _ s => String.prefix "2" s;
  o_f2i := fun _ => - 2 ^ 63;
  o_json := fun v => match v with GStr s => Some s | GNil => Some "null" | _ => None end;
  o_hash := fun s => fold_left (fun n c => n * 256 + 1 + Z.of_nat (Ascii.nat_of_ascii c))
                       (list_ascii_of_string s) 0 |}.

(** A base shape with empty facets (cells 0, 1 and 2 of the example heaps). *)
Definition eb (id : Z) (name ty : string) (sh : shape) : cell :=
  CBase (Base id name "" ty None None None None None None [] 2%nat None None 0%nat 1%nat
           true false (Some sh)).
Definition eempty : list cell := [CFacets []; CProps []; CSlice []].
Definition estr : str_facets := StrF None None None None.

(** [Tree: {properties: {name: string, kids: Tree[]}, "/x/": integer}] after
    recursion marking: 3 Tree, 4 name, 5 kids, 6 recursive, 7 integer. *)
Definition tree_heap : list cell := eempty ++
  [eb 1 "Tree" "object" (SObject (ObjF None None None (Some 8%nat) (Some 9%nat) None (Some 3)));
   eb 2 "name" "string" (SStr estr);
   eb 3 "kids" "array" (SArray (ArrF (Some 6%nat) None None None));
   eb 4 "Tree" "recursive" (SRec 3%nat);
   eb 5 "x" "integer" (SInt (IntF None None None None None));
   CProps [("name", Prop_ "name" 4%nat true); ("kids", Prop_ "kids" 5%nat false)];
   CProps [("/x/", Prop_ "x" 7%nat false)]].

Definition tree_value : gval :=
  GMap [("kids", GArr [GMap [("name", GStr "leaf")]]); ("name", GStr "root")].

Ltac heap_cases a :=
  let rec go n := match n with
    | O => idtac
    | S ?m => destruct a as [|a]; [|go m]
    end in go 12%nat.

(** * C07 *)
Theorem C07_array_validate : forall O h a f v,
  oracle_wf O -> hash_injective O -> closed h -> guarded h ->
  shape_at h a (SArray f) -> value_wf v ->
  (returns_nil O h a v <-> array_accepts O (returns_nil O h) f v)
  /\ (returns_error O h a v <-> ~ array_accepts O (returns_nil O h) f v).
Proof. exact (fun O h a f v H1 H2 H3 H4 H5 H6 => one_level O h a (SArray f) v H1 H2 H3 H4 H5 H6). Qed.
Print Assumptions C07_array_validate.

(** For every hash function, even with collisions: nothing wrong is accepted. *)
Theorem C07_array_sound : forall O h a f v,
  oracle_wf O -> gval_wf v -> shape_at h a (SArray f) ->
  returns_nil O h a v -> array_accepts O (returns_nil O h) f v.
Proof. exact (fun O h a f v H1 H2 H3 => one_level_sound O h a (SArray f) v H1 H2 H3). Qed.
Print Assumptions C07_array_sound.

(** * C08 *)
Theorem C08_object_validate : forall O h a f v,
  oracle_wf O -> hash_injective O -> closed h -> guarded h ->
  shape_at h a (SObject f) -> value_wf v ->
  (returns_nil O h a v <-> object_accepts O h (returns_nil O h) f v)
  /\ (returns_error O h a v <-> ~ object_accepts O h (returns_nil O h) f v).
Proof. exact (fun O h a f v H1 H2 H3 H4 H5 H6 => one_level O h a (SObject f) v H1 H2 H3 H4 H5 H6). Qed.
Print Assumptions C08_object_validate.

(** * C10 *)
Theorem C10_union_validate : forall O h a sl e v,
  oracle_wf O -> hash_injective O -> closed h -> guarded h ->
  shape_at h a (SUnion sl e) -> value_wf v ->
  (returns_nil O h a v <->
     exists l m, get_slice h sl = Some l /\ In m l /\ returns_nil O h m v)
  /\ (returns_error O h a v <->
     ~ exists l m, get_slice h sl = Some l /\ In m l /\ returns_nil O h m v).
Proof. exact (fun O h a sl e v H1 H2 H3 H4 H5 H6 => one_level O h a (SUnion sl e) v H1 H2 H3 H4 H5 H6). Qed.
Print Assumptions C10_union_validate.

(** The same for a whole type at once: Validate decides the least relation
    closed under the one-level rules. *)
Theorem C08_validate_decides : forall O h a sh v,
  oracle_wf O -> hash_injective O -> closed h -> guarded h -> shape_at h a sh -> value_wf v ->
  (returns_nil O h a v <-> valid O h a v) /\ (returns_error O h a v <-> ~ valid O h a v)
  /\ returns O h a v.
Proof. exact verdict. Qed.
Print Assumptions C08_validate_decides.

(** * C09 *)
Theorem C09_map_order : forall O h a sh v w,
  oracle_wf O -> hash_injective O -> json_order_free O -> closed h -> guarded h ->
  shape_at h a sh -> value_wf v -> value_wf w -> same_value v w ->
  (returns_nil O h a v <-> returns_nil O h a w).
Proof. exact verdict_order. Qed.
Print Assumptions C09_map_order.

Theorem C09_map_order_any_heap : forall O h a v w,
  oracle_wf O -> hash_injective O -> json_order_free O ->
  value_wf v -> value_wf w -> same_value v w ->
  returns_nil O h a v -> ~ returns_error O h a w.
Proof. exact order_no_contradiction. Qed.
Print Assumptions C09_map_order_any_heap.

(** * C11 *)
Theorem C11_guarded_terminates : forall O h a sh v,
  closed h -> guarded h -> shape_at h a sh ->
  exists n, forall m, (n <= m)%nat ->
    validate m O h a v = Ok tt \/ validate m O h a v = Err.
Proof.
  exact (fun O h a sh v HC HG Hsh =>
    match validate_terminates O h HC HG (S (gsize v)) v (Nat.lt_succ_diag_r _) with
    | ex_intro _ n Hn => ex_intro _ n (fun m L => decided_mono n m O h a v L (Hn a sh Hsh))
    end).
Qed.
Print Assumptions C11_guarded_terminates.

(** * The hypotheses of the above hold for a recursive type *)
Lemma tree_shapes : forall a sh, shape_at tree_heap a sh ->
  (a = 3%nat \/ a = 4%nat \/ a = 5%nat \/ a = 6%nat \/ a = 7%nat).
Proof.
  intros a sh (b & A & B). unfold get_base, tree_heap, eempty in A.
  heap_cases a; simpl in A; try discriminate; auto.
  all: try (destruct a; discriminate).
Qed.

Ltac shape_is H := let b := fresh "b" in let A := fresh "A" in let B := fresh "B" in
  destruct H as (b & A & B); vm_compute in A; injection A as <-; vm_compute in B; injection B as <-.

Lemma tree_closed : closed tree_heap.
Proof.
  intros a sh H. pose proof (tree_shapes a sh H) as Ha.
  assert (HS : forall a, (a = 3 \/ a = 4 \/ a = 5 \/ a = 6 \/ a = 7)%nat -> exists sh', shape_at tree_heap a sh').
  { intros x [->|[->|[->|[->| ->]]]]; eexists; eexists; split; reflexivity. }
  destruct Ha as [->|[->|[->|[->| ->]]]]; shape_is H.
  - split.
    + intros c K. inversion K as [|f ps k p Hp Hin|f ps k p Hp Hin| |]; subst; apply HS.
      * destruct Hp as [[? _]|(m & M1 & M2)]; [discriminate|]. injection M1 as <-.
        vm_compute in M2. injection M2 as <-. destruct Hin as [Q|[Q|[]]]; injection Q as <- <-; simpl; auto.
      * destruct Hp as [[? _]|(m & M1 & M2)]; [discriminate|]. injection M1 as <-.
        vm_compute in M2. injection M2 as <-. destruct Hin as [Q|[]]; injection Q as <- <-; simpl; auto.
    + split; eexists; right; eexists; split; reflexivity.
  - split; [intros c K; inversion K|exact I].
  - split; [|exact I]. intros c K. inversion K as [f i E| | | |]; subst. injection E as <-. apply HS. auto.
  - split; [|exact I]. intros c K. inversion K; subst. apply HS. auto.
  - split; [intros c K; inversion K|exact I].
Qed.

Lemma tree_guarded : guarded tree_heap.
Proof.
  assert (H3 : Acc (fun c a => exists sh, shape_at tree_heap a sh /\ same_value_child tree_heap sh c) 3%nat).
  { constructor. intros c (sh & H & K). shape_is H. inversion K. }
  intros a. constructor. intros c (sh & H & K).
  pose proof (tree_shapes a sh H) as Ha.
  destruct Ha as [->|[->|[->|[->| ->]]]]; shape_is H; inversion K; subst. exact H3.
Qed.

Lemma exO_wf : oracle_wf exO.
Proof. intros f. vm_compute. split; congruence. Qed.

Lemma exO_hash : hash_injective exO.
Proof.
  assert (H : forall l l' n n',
    fold_left (fun n c => n * 256 + 1 + Z.of_nat (Ascii.nat_of_ascii c)) l n =
    fold_left (fun n c => n * 256 + 1 + Z.of_nat (Ascii.nat_of_ascii c)) l' n' ->
    List.length l = List.length l' -> l = l' /\ n = n').
  { induction l as [|c l IH]; intros [|c' l'] n n' E L; try discriminate; simpl in *; [auto|].
    apply IH in E; [|congruence]. destruct E as [-> E].
    pose proof (Ascii.nat_ascii_bounded c) as B1. pose proof (Ascii.nat_ascii_bounded c') as B2.
    assert (n = n' /\ Z.of_nat (Ascii.nat_of_ascii c) = Z.of_nat (Ascii.nat_of_ascii c')) as [-> E'] by lia.
    apply Nat2Z.inj in E'. split; [|reflexivity]. f_equal.
    rewrite <- (Ascii.ascii_nat_embedding c), <- (Ascii.ascii_nat_embedding c'). congruence. }
  assert (Pos : forall l n, 0 <= n ->
    n * 256 ^ Z.of_nat (List.length l) + (if l then 0 else 1) <=
    fold_left (fun n c => n * 256 + 1 + Z.of_nat (Ascii.nat_of_ascii c)) l n).
  { induction l as [|c l IH]; intros n Hn; [simpl; lia|].
    cbn [fold_left]. specialize (IH (n * 256 + 1 + Z.of_nat (Ascii.nat_of_ascii c))).
    assert (0 < 256 ^ Z.of_nat (List.length l)) by (apply Z.pow_pos_nonneg; lia).
    cbn [List.length]. rewrite Nat2Z.inj_succ, Z.pow_succ_r by lia.
    assert (n * (256 * 256 ^ Z.of_nat (List.length l)) + 256 ^ Z.of_nat (List.length l) <=
            (n * 256 + 1 + Z.of_nat (Ascii.nat_of_ascii c)) * 256 ^ Z.of_nat (List.length l)) by nia.
    destruct l; lia. }
  assert (Len : forall l l' n n', 0 <= n -> 0 <= n' -> (List.length l < List.length l')%nat -> n = n' ->
    fold_left (fun n c => n * 256 + 1 + Z.of_nat (Ascii.nat_of_ascii c)) l n <>
    fold_left (fun n c => n * 256 + 1 + Z.of_nat (Ascii.nat_of_ascii c)) l' n').
  { intros l l' n n' Hn Hn' L Ee E. subst n'.
    rewrite <- (firstn_skipn (List.length l' - List.length l) l') in E.
    rewrite fold_left_app in E.
    apply H in E; [|rewrite skipn_length; lia]. destruct E as [_ E].
    pose proof (Pos (firstn (List.length l' - List.length l) l') n Hn) as P.
    rewrite <- E in P.
    assert (LL : List.length (firstn (List.length l' - List.length l) l') = (List.length l' - List.length l)%nat)
      by (rewrite firstn_length; lia).
    rewrite LL in P.
    destruct (firstn (List.length l' - List.length l) l') as [|c0 q] eqn:Q; [simpl in LL; lia|].
    assert (1 <= 256 ^ Z.of_nat (List.length l' - List.length l)).
    { change 1 with (256 ^ 0). apply Z.pow_le_mono_r; lia. }
    nia. }
  intros d e E. unfold exO, o_hash in E.
  assert (D : list_ascii_of_string d = list_ascii_of_string e).
  { destruct (Nat.lt_trichotomy (List.length (list_ascii_of_string d)) (List.length (list_ascii_of_string e)))
      as [L|[L|L]].
    - exfalso. eapply Len; [| |exact L| |exact E]; lia.
    - apply H in E; tauto.
    - exfalso. eapply Len; [| |exact L| |symmetry; exact E]; lia. }
  rewrite <- (string_of_list_ascii_of_string d), <- (string_of_list_ascii_of_string e). congruence.
Qed.

Lemma tree_value_wf : value_wf tree_value.
Proof.
  apply vw_map; [repeat constructor; simpl; intuition discriminate|].
  intros k x [E|[E|[]]]; injection E as <- <-.
  - apply vw_arr. intros x [<-|[]]. apply vw_map; [repeat constructor; simpl; tauto|].
    intros k x [E|[]]; injection E as <- <-. apply vw_leaf; [exact I|discriminate|discriminate].
  - apply vw_leaf; [exact I|discriminate|discriminate].
Qed.

Example C08_case_accepted : valid exO tree_heap 3%nat tree_value.
Proof. apply (validate_sound 9); [exact exO_wf|exact tree_value_wf|reflexivity]. Qed.

Example C08_case_missing : ~ valid exO tree_heap 3%nat (GMap [("kids", GArr [GMap []]); ("name", GStr "r")]).
Proof.
  apply (validate_complete 9); [exact exO_wf|exact exO_hash| |reflexivity].
  apply vw_map; [repeat constructor; simpl; intuition discriminate|].
  intros k x [E|[E|[]]]; injection E as <- <-.
  - apply vw_arr. intros x [<-|[]]. apply vw_map; [constructor|intros k x []].
  - apply vw_leaf; [exact I|discriminate|discriminate].
Qed.

Example C08_case_pattern : ~ valid exO tree_heap 3%nat (GMap [("x1", GStr "no"); ("name", GStr "r")]).
Proof.
  apply (validate_complete 9); [exact exO_wf|exact exO_hash| |reflexivity].
  apply vw_map; [repeat constructor; simpl; intuition discriminate|].
  intros k x [E|[E|[]]]; injection E as <- <-; (apply vw_leaf; [exact I|discriminate|discriminate]).
Qed.

Example C09_hyps : same_value tree_value
  (GMap [("name", GStr "root"); ("kids", GArr [GMap [("name", GStr "leaf")]])]).
Proof.
  eapply sv_map with (l' := [("kids", GArr [GMap [("name", GStr "leaf")]]); ("name", GStr "root")]).
  - repeat constructor.
  - apply Permutation.perm_swap.
Qed.

Example C07_case_unique :
  array_validate exO (validate 3 exO tree_heap) (ArrF (Some 4%nat) (Some 1) (Some 3) (Some true))
    (GArr [GStr "a"; GStr "b"]) = Ok tt
  /\ array_validate exO (validate 3 exO tree_heap) (ArrF (Some 4%nat) (Some 1) (Some 3) (Some true))
    (GArr [GStr "a"; GStr "a"]) = Err.
Proof. split; reflexivity. Qed.

(** * C12 *)

(** [U: U | string] as the resolver leaves it (/repo/rdt_visitor.go:134-150,
    160-184): 3 U, 4 its first member (an alias of U), 5 string. *)
Definition u_start : list cell :=
  [CFacets []; CProps []; CSlice [];
   CBase (Base 1 "U" "" "union" None None None None None None [] 2%nat None None 0%nat 1%nat
            false false (Some (SUnion 6%nat None)));
   CBase (Base 2 "" "" "union" None None None None None None [] 2%nat (Some 3%nat) None 0%nat 1%nat
            false false (Some (SUnion 7%nat None)));
   CBase (Base 3 "" "" "string" None None None None None None [] 2%nat None None 0%nat 1%nat
            false false (Some (SStr estr)));
   CSlice [4%nat; 5%nat]; CSlice []].

(** UnwrapShape and FindAndMarkRecursion applied to it. *)
Definition u_heap : list cell :=
  heap (snd ((unwrap 9 3%nat ;;; mark 9 3%nat) (St u_start [] 3))).

Theorem C12_validate_terminates_refuted :
  ~ (forall O st0 a h v,
       fst ((unwrap 9 a ;;; mark 9 a) st0) = Ok None ->
       h = heap (snd ((unwrap 9 a ;;; mark 9 a) st0)) ->
       closed h -> returns O h a v).
Proof.
  intros H.
  assert (HC : closed u_heap).
  { assert (HS : forall a, (a = 3 \/ a = 4 \/ a = 5 \/ a = 11)%nat -> exists sh', shape_at u_heap a sh').
    { intros x [->|[->|[->| ->]]]; eexists; eexists; split; vm_compute; reflexivity. }
    assert (HN : forall a sh, shape_at u_heap a sh -> (a = 3 \/ a = 4 \/ a = 5 \/ a = 11)%nat).
    { intros a sh (b & A & B). unfold get_base in A.
      change u_heap with (ltac:(let h := eval vm_compute in u_heap in exact h)) in A.
      heap_cases a; simpl in A; try discriminate; auto; try (destruct a; discriminate). }
    intros a sh Ha. pose proof (HN a sh Ha) as C.
    destruct C as [->|[->|[->| ->]]]; shape_is Ha.
    - split; [|eexists; vm_compute; reflexivity].
      intros c K. inversion K as [| | |sl e l m E1 E2|]; subst. vm_compute in E1. injection E1 as <-.
      apply HS. simpl in E2. destruct E2 as [<-|[<-|[]]]; auto.
    - split; [|eexists; vm_compute; reflexivity].
      intros c K. inversion K as [| | |sl e l m E1 E2|]; subst. vm_compute in E1. injection E1 as <-.
      apply HS. simpl in E2. destruct E2 as [<-|[<-|[]]]; auto.
    - split; [intros c K; inversion K|exact I].
    - split; [|exact I]. intros c K. inversion K; subst. apply HS. auto. }
  assert (HR : fst ((unwrap 9 3%nat ;;; mark 9 3%nat) (St u_start [] 3)) = Ok None) by (vm_compute; reflexivity).
  specialize (H exO (St u_start [] 3) 3%nat u_heap (GStr "x") HR).
  assert (HE : u_heap = heap (snd ((unwrap 9 3%nat ;;; mark 9 3%nat) (St u_start [] 3))))
    by (unfold u_heap; reflexivity).
  specialize (H HE). specialize (H HC). clear HC HR HE.
  assert (D : forall n, validate n exO u_heap 3%nat (GStr "x") = OutOfFuel
                     /\ validate n exO u_heap 4%nat (GStr "x") = OutOfFuel
                     /\ validate n exO u_heap 11%nat (GStr "x") = OutOfFuel).
  { induction n as [|n (A & B & C)]; [repeat split|].
    rewrite !validate_S.
    assert (E3 : get_base u_heap 3%nat = Some (ltac:(let b := eval vm_compute in (get_base u_heap 3%nat) in match b with Some ?x => exact x end))) by (vm_compute; reflexivity).
    assert (E4 : get_base u_heap 4%nat = Some (ltac:(let b := eval vm_compute in (get_base u_heap 4%nat) in match b with Some ?x => exact x end))) by (vm_compute; reflexivity).
    assert (E11 : get_base u_heap 11%nat = Some (ltac:(let b := eval vm_compute in (get_base u_heap 11%nat) in match b with Some ?x => exact x end))) by (vm_compute; reflexivity).
    rewrite E3, E4, E11. cbn [b_shape scalar_validate].
    assert (E6 : get_slice u_heap 6%nat = Some [11%nat; 5%nat]) by (vm_compute; reflexivity).
    rewrite E6. cbn [union_validate]. rewrite B, C. auto. }
  destruct H as [[n Hn]|[n Hn]]; destruct (D n) as [Dn _]; congruence.
Qed.
Print Assumptions C12_validate_terminates_refuted.

(** What remains true of unguarded types: whenever Validate does return, the
    verdict is right. *)
Theorem C12_verdict_right_partial : forall O h a v,
  oracle_wf O -> hash_injective O -> value_wf v ->
  (returns_nil O h a v -> valid O h a v) /\ (returns_error O h a v -> ~ valid O h a v).
Proof.
  exact (fun O h a v HO HI Hv => conj
    (fun H => match H with ex_intro _ n Hn => validate_sound n O h a v HO Hv Hn end)
    (fun H => match H with ex_intro _ n Hn => validate_complete n O h a v HO HI Hv Hn end)).
Qed.
Print Assumptions C12_verdict_right_partial.

(** * C30 *)
Theorem C30_check : forall n O h a,
  oracle_wf O -> discvals_wf h -> check n O h a = Ok tt ->
  forall d sh, below_ h a d -> shape_at h d sh -> consistent O h sh.
Proof. exact (fun n O h a HO HD H d sh B S => check_ok n O h a d HO HD B H sh S). Qed.
Print Assumptions C30_check.

Theorem C30_check_complete : forall n O h a,
  oracle_wf O -> hash_injective O -> discvals_wf h -> check n O h a = Err ->
  exists d sh, below_ h a d /\ shape_at h d sh /\ ~ consistent O h sh.
Proof. exact check_err. Qed.
Print Assumptions C30_check_complete.

Example C30_case : check 9 exO tree_heap 3%nat = Ok tt /\ below_ tree_heap 3%nat 6%nat.
Proof.
  split; [reflexivity|].
  eapply bl_step; [eexists; split; reflexivity|discriminate| |].
  { eapply ch_prop; [right; eexists; split; reflexivity|right; left; reflexivity]. }
  eapply bl_step; [eexists; split; reflexivity|discriminate|constructor; reflexivity|constructor].
Qed.

(** A discriminator that is not a scalar is refused. *)
Example C30_case_refused :
  check 9 exO (eempty ++ [eb 1 "T" "object" (SObject (ObjF (Some "kids") None None (Some 5%nat) None None None));
                          eb 2 "kids" "array" (SArray (ArrF None None None None));
                          CProps [("kids", Prop_ "kids" 4%nat true)]]) 3%nat = Err.
Proof. reflexivity. Qed.

(** * C31 *)
Theorem C31_samples_conform : forall n O h a d b v,
  commons n O h a = Ok tt -> part_of h a d -> get_base h d = Some b -> sample b v ->
  returns_nil O h d v.
Proof. exact commons_samples. Qed.
Print Assumptions C31_samples_conform.

(** * C32 *)

(** [ancestor] follows the first parent only: what the other parents of a type
    define is not looked at (C32_document_refuted). *)
Theorem C32_facets_enforced_partial : forall n O h a b,
  facets_keyed h -> get_base h a = Some b -> commons n O h a = Ok tt ->
  (forall c, ancestor h b c -> exists m ca, get_base h ca = Some c /\ commons m O h ca = Ok tt) ->
  (forall c d d', ancestor h b c -> defines_facet h c d -> defines_facet h b d' -> p_name d <> p_name d')
  /\ (forall k v, gives_facet h b k v -> exists c d, ancestor h b c /\ defines_facet h c d /\ p_name d = k)
  /\ (forall c d, ancestor h b c -> defines_facet h c d ->
        (p_req d = true -> exists v, gives_facet h b (p_name d) v)
        /\ (forall v, gives_facet h b (p_name d) v -> returns_nil O h (p_base d) v)).
Proof. exact facets_enforced. Qed.
Print Assumptions C32_facets_enforced_partial.

(** [P: {type: string, facets: {unit: string}}; C: {type: P, unit: m,
    example: abc}]: 3 P, 4 C, 5 the facet definition. *)
Definition facet_heap (unit ex : gval) : list cell :=
  [CFacets []; CProps []; CSlice [];
   CBase (Base 1 "P" "" "string" None None None None None None [] 2%nat None None 0%nat 6%nat
            true false (Some (SStr estr)));
   CBase (Base 2 "C" "" "string" None None (Some ex) None None None [] 7%nat None None 8%nat 1%nat
            true false (Some (SStr estr)));
   eb 3 "unit" "string" (SStr estr);
   CProps [("unit", Prop_ "unit" 5%nat true)]; CSlice [3%nat]; CFacets [("unit", unit)]].

Example C31_C32_case :
  let h := facet_heap (GStr "m") (GStr "abc") in
  commons 9 exO h 4%nat = Ok tt /\ commons 9 exO h 3%nat = Ok tt
  /\ commons 9 exO (facet_heap (GInt 1) (GStr "abc")) 4%nat = Err
  /\ commons 9 exO (facet_heap (GStr "m") (GInt 1)) 4%nat = Err
  /\ (exists b c d, get_base h 4%nat = Some b /\ ancestor h b c /\ defines_facet h c d
                    /\ p_name d = "unit" /\ sample b (GStr "abc")).
Proof.
  repeat (split; [reflexivity|]).
  eexists. eexists. exists (Prop_ "unit" 5%nat true). split; [reflexivity|]. split.
  - apply anc_one. exists 3%nat, []. split; reflexivity.
  - split; [exists [("unit", Prop_ "unit" 5%nat true)], "unit"; split; [reflexivity|now left]|].
    split; [reflexivity|]. now left.
Qed.
