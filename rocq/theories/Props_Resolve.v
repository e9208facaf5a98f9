(** Property theorems about the resolution of type expressions
    (C43, C45, C46). *)
From Coq Require Import ZArith List String Bool Lia.
From Verif Require Import Base Scalars Spec_Scalars Heap Heap_lemmas Validate Spec_Validate Validate_proofs
  Rdt Resolve Spec_Resolve Resolve_proofs Resolve_ends Ids_proofs Spec_Model Model_check Props_Validate Props_Inherit.
Import ListNotations.
Open Scope string_scope.
Open Scope list_scope.
Open Scope nat_scope.

(** A small model: the types of one library, each with its containers at the
    three addresses before it; [decls] gives name, type expression and shape. *)
Definition tmodel (decls : list (string * string * shape * bool)) : list cell :=
  flat_map (fun ix => match ix with (i, (nm, ty, sh, uw)) =>
      [CFacets []; CProps []; CSlice [];
       CBase (Base (Z.of_nat i) nm "lib" ty None None None None None None [] (4 * i + 2) None None
                (4 * i) (4 * i + 1) uw false (Some sh))] end)
    (combine (seq 0 (List.length decls)) decls).

Fixpoint index_of (nm : string) (l : list (string * string * shape * bool)) (i : nat) : option addr :=
  match l with
  | [] => None
  | (n, _, _, _) :: l' => if String.eqb n nm then Some (4 * i + 3) else index_of nm l' (S i)
  end.
Definition tstate (l : list (string * string * shape * bool)) : st :=
  St (tmodel l) [] (Z.of_nat (List.length l)).
Definition tenv (l : list (string * string * shape * bool)) : renv :=
  REnv (fun nm loc => if String.eqb loc "lib" then index_of nm l 0 else None) (fun _ => None).

(** * C43 *)

(** A declared type that consists of a type expression: once it is resolved and
    unwrapped, it accepts exactly the values the expression denotes. The
    referenced types are resolved and unwrapped; they may contain the type
    itself. *)
Theorem C43_expression_partial : forall E k n a e s s1 s2 r b,
  get_base (heap s) a = Some b -> b_shape b = Some SUnknown -> bare (heap s) b ->
  b_type b <> "composite" -> read_type (b_type b) = Some e -> rv_facets E a = None ->
  (forall name x, In name (refs e) -> rv_lookup E name (b_loc b) = Some x ->
     x <> a /\ finished (heap s) x) ->
  resolve k E a s = (Ok tt, s1) -> unwrap n a s1 = (Ok r, s2) ->
  r = a /\ forall O v, valid O (heap s2) a v
    <-> denotes O (fun name w => exists x, rv_lookup E name (b_loc b) = Some x
                                           /\ valid O (heap s2) x w) e v.
Proof. exact expression_denotes. Qed.
Print Assumptions C43_expression_partial.

(** The operators, read off the denotation. *)
Theorem C43_operators : forall O R a t1 t2 v,
  (denotes_typ O R (TArray a) v <-> exists l, v = GArr l /\ forall x, In x l -> denotes_atom O R a x)
  /\ (denotes_typ O R (TOptional a) v <-> denotes_atom O R a v \/ v = GNil)
  /\ (denotes O R (EUnion t1 t2 []) v <-> denotes_typ O R t1 v \/ denotes_typ O R t2 v)
  /\ (denotes_atom O R (AGroup (EType t1)) v <-> denotes_typ O R t1 v).
Proof.
  intros. split; [reflexivity|]. split; [reflexivity|]. split; [|reflexivity].
  change (denotes O R (EUnion t1 t2 []) v) with (denotes_typ O R t1 v \/ denotes_typ O R t2 v \/ False). tauto.
Qed.
Print Assumptions C43_operators.

(** [T] is an unwrapped string type of at most 3 characters, [A] is
    [(T | integer)[] | T?]. *)
Definition d43 : list (string * string * shape * bool) :=
  [("T", "string", SStr (StrF None (Some 3%Z) None None), true);
   ("A", "(T | integer)[] | T?", SUnknown, false)].

Example C43_case :
  exists e s1 s2 b, get_base (heap (tstate d43)) 7 = Some b /\ b_shape b = Some SUnknown
    /\ bare (heap (tstate d43)) b /\ read_type (b_type b) = Some e
    /\ refs e = ["T"; "T"] /\ rv_lookup (tenv d43) "T" (b_loc b) = Some 3
    /\ finished (heap (tstate d43)) 3
    /\ resolve 5 (tenv d43) 7 (tstate d43) = (Ok tt, s1)
    /\ unwrap 9 7 s1 = (Ok 7, s2)
    /\ (forall O, validate 9 O (heap s2) 7 (GArr [GStr "abc"; GInt 5%Z]) = Ok tt)
    /\ (forall O, validate 9 O (heap s2) 7 (GArr [GStr "abcd"]) = Err)
    /\ (forall O, validate 9 O (heap s2) 7 GNil = Ok tt)
    /\ (forall O, validate 9 O (heap s2) 7 (GStr "abcd") = Err).
Proof.
  eexists. eexists. eexists. eexists.
  split; [vm_compute; reflexivity|]. split; [reflexivity|]. split; [repeat split|].
  split; [vm_compute; reflexivity|]. split; [reflexivity|]. split; [reflexivity|].
  split. { eexists. eexists. split; [vm_compute; reflexivity|]. split; [reflexivity|]. split; [discriminate|].
    split; [reflexivity|]. intros e X. discriminate X. }
  split; [vm_compute; reflexivity|]. split; [vm_compute; reflexivity|].
  repeat split; intros O; vm_compute; reflexivity.
Qed.

(** Parentheses do change something when the type has facets: [type: string]
    with [maxLength: 3] keeps the facet, [type: (string)] drops it without an
    error. *)
Definition max3 (sh : shape) : res shape :=
  match sh with
  | SStr f => Ok (SStr (StrF (sf_min f) (Some 3%Z) (sf_pat f) (sf_enum f)))
  | _ => Err
  end.

Theorem C43_parentheses_refuted :
  exists E s a s1 s2,
    get_base (heap s) a <> None /\ rv_facets E a = Some max3
    /\ read_type "(string)" = Some (EType (TAtom (AGroup (EType (TAtom (APrim PString))))))
    /\ (exists b, get_base (heap s) a = Some b /\ b_type b = "(string)" /\ b_shape b = Some SUnknown)
    /\ resolve 5 E a s = (Ok tt, s1)
    /\ make_concrete a "string" (rv_facets E a) s = (Ok tt, s2)
    /\ (forall O, valid O (heap s1) a (GStr "abcd"))
    /\ (forall O, ~ valid O (heap s2) a (GStr "abcd")).
Proof.
  exists (REnv (fun _ _ => None) (fun a => if Nat.eqb a 3 then Some max3 else None)).
  exists (tstate [("A", "(string)", SUnknown, false)]). exists 3. eexists. eexists.
  split; [discriminate|]. split; [reflexivity|]. split; [reflexivity|].
  split; [eexists; split; [vm_compute; reflexivity|]; split; reflexivity|].
  split; [vm_compute; reflexivity|]. split; [vm_compute; reflexivity|]. split.
  - intros O. rewrite (valid_shape O _ 3 (SStr (StrF None None None None))).
    2:{ eexists. split; reflexivity. }
    simpl. exists "abcd". split; auto. split; [intros m M; discriminate M|]. split; [intros m M; discriminate M|].
    split; intros ? X; discriminate X.
  - intros O. rewrite (valid_shape O _ 3 (SStr (StrF None (Some 3%Z) None None))).
    2:{ eexists. split; reflexivity. }
    simpl. intros (i & X & _ & M & _). injection X as <-. specialize (M 3%Z eq_refl). simpl in M. lia.
Qed.
Print Assumptions C43_parentheses_refuted.

(** * C45 *)

(** Resolution of all types ends, whatever errors there are, if no type needs
    its own kind: there is a rank that decreases from a type to the types whose
    kind it takes over. If there is no error every type is settled. *)
Theorem C45_resolution_partial : forall E s rank,
  parsed (rv_lookup E) (heap s) -> (forall a, tame (rv_facets E a)) ->
  (forall x y, needs (rv_lookup E) (heap s) x y -> rank y < rank x) ->
  exists n0, forall n l, n0 <= n -> (forall a, In a l -> is_base (heap s) a) ->
    exists g s', resolve_all n E l true s = (Ok g, s')
      /\ (g = true -> forall a, In a l -> exists b, get_base (heap s') a = Some b /\ settled b = true).
Proof. exact resolution_ends. Qed.
Print Assumptions C45_resolution_partial.

(** Types that are aliases of each other: resolution never ends. *)
Theorem C45_alias_cycles : forall E s (C : addr -> Prop),
  (forall x, C x -> exists b e nm y yb, get_base (heap s) x = Some b /\ b_shape b = Some SUnknown
     /\ b_link b = None /\ b_type b <> "composite" /\ read_type (b_type b) = Some e /\ head_ref e = Some nm
     /\ rv_lookup E nm (b_loc b) = Some y /\ C y /\ get_base (heap s) y = Some yb /\ b_id yb <> b_id b) ->
  forall n x, C x -> resolve n E x s = (OutOfFuel, s).
Proof. exact alias_cycle_diverges. Qed.
Print Assumptions C45_alias_cycles.

Ltac cells G x := let L := fresh in pose proof (get_base_lt _ _ _ G) as L; simpl in L;
  do 12 (try (destruct x as [|x]; [clear L; cbv in G; first [discriminate G|injection G as <-]|]));
  try (exfalso; lia).

(** [A: B; B: A]. *)
Definition d45 : list (string * string * shape * bool) := [("A", "B", SUnknown, false); ("B", "(A)", SUnknown, false)].

Lemma d45_parsed : parsed (rv_lookup (tenv d45)) (heap (tstate d45)).
Proof.
  constructor.
  - intros nm loc y L. cbv [tenv rv_lookup] in L. destruct (String.eqb loc "lib"); [|discriminate L].
    unfold d45, index_of in L. destruct (String.eqb "A" nm); [injection L as <-; eexists; reflexivity|].
    destruct (String.eqb "B" nm); [injection L as <-; eexists; reflexivity|discriminate L].
  - intros x b l G _ L. cells G x; discriminate L.
  - intros x b G. cells G x; eexists; (split; [reflexivity|split; intros; discriminate]).
  - intros x b sh G S N. cells G x; cbv in S; congruence.
  - intros x y bx by_ G G' Q. cells G x; cells G' y; try reflexivity; discriminate Q.
Qed.

Theorem C45_alias_cycle_refuted : exists E s l,
  parsed (rv_lookup E) (heap s) /\ (forall a, rv_facets E a = None) /\ numbered s
  /\ (forall a, In a l -> is_base (heap s) a)
  /\ forall n, fst (resolve_all n E l true s) = OutOfFuel.
Proof.
  exists (tenv d45), (tstate d45), [3; 7]. split; [apply d45_parsed|]. split; [reflexivity|]. split.
  { split.
    - intros x b G. cells G x; cbv; discriminate.
    - intros x y bx by_ G G' Q. cells G x; cells G' y; try reflexivity; discriminate Q. }
  split. { intros a [<-|[<-|[]]]; eexists; reflexivity. }
  intros n. simpl. unfold bind, try.
  rewrite (C45_alias_cycles _ _ (fun x => x = 3 \/ x = 7)); [reflexivity| |auto].
  intros x [-> | ->].
  - eexists. eexists. exists "B", 7. eexists. split; [reflexivity|]. repeat split; auto; discriminate.
  - eexists. eexists. exists "A", 3. eexists. split; [reflexivity|]. repeat split; auto; discriminate.
Qed.
Print Assumptions C45_alias_cycle_refuted.

(** [A: (B); B: C[]; C: A | string]: a cycle, but not of aliases. *)
Definition d45r : list (string * string * shape * bool) :=
  [("A", "(B)", SUnknown, false); ("B", "C[]", SUnknown, false); ("C", "A | string", SUnknown, false)].

Example C45_case : parsed (rv_lookup (tenv d45r)) (heap (tstate d45r))
  /\ (forall x y, needs (rv_lookup (tenv d45r)) (heap (tstate d45r)) x y -> 12 - y < 12 - x)
  /\ exists s', resolve_all 9 (tenv d45r) [3; 7; 11] true (tstate d45r) = (Ok true, s').
Proof.
  split; [|split].
  - constructor.
    + intros nm loc y L. cbv [tenv rv_lookup] in L. destruct (String.eqb loc "lib"); [|discriminate L].
      unfold d45r, index_of in L. destruct (String.eqb "A" nm); [injection L as <-; eexists; reflexivity|].
      destruct (String.eqb "B" nm); [injection L as <-; eexists; reflexivity|].
      destruct (String.eqb "C" nm); [injection L as <-; eexists; reflexivity|discriminate L].
    + intros x b l G _ L. cells G x; discriminate L.
    + intros x b G. cells G x; eexists; (split; [reflexivity|split; intros; discriminate]).
    + intros x b sh G S N. cells G x; cbv in S; congruence.
    + intros x y bx by_ G G' Q. cells G x; cells G' y; try reflexivity; discriminate Q.
  - intros x y (b & G & _ & K). cells G x; cbn [b_link] in K; cbv [b_type] in K; simpl in K;
      destruct K as (e & nm & RT & H & L); cbv in RT; injection RT as <-; cbv in H; try discriminate H.
    injection H as <-. cbv in L. injection L as <-. lia.
  - eexists. vm_compute. reflexivity.
Qed.

(** * C46 *)

(** Resolution does not panic on a parsed model, with any number of steps. *)
Theorem C46_resolution_partial : forall E s n l,
  parsed (rv_lookup E) (heap s) -> (forall a, tame (rv_facets E a)) ->
  (forall a, In a l -> is_base (heap s) a) -> fst (resolve_all n E l true s) <> Panic.
Proof. exact resolution_never_panics. Qed.
Print Assumptions C46_resolution_partial.

Example C46_case : parsed (rv_lookup (tenv d45)) (heap (tstate d45)).
Proof. exact d45_parsed. Qed.

(** [type: []]: the type is "composite" and has no parents; the first parent is
    read all the same. *)
Theorem C46_no_parents_refuted : exists E s a,
  (exists b, get_base (heap s) a = Some b /\ b_shape b = Some SUnknown /\ b_type b = "composite" /\ b_link b = None
     /\ get_slice (heap s) (b_inherits b) = Some [])
  /\ forall n, fst (resolve (S n) E a s) = Panic.
Proof.
  exists (tenv []), (tstate [("A", "composite", SUnknown, false)]), 3. split.
  - eexists. repeat split.
  - intros n. reflexivity.
Qed.
Print Assumptions C46_no_parents_refuted.

(** * C41 *)

(** Creating shapes, resolving all types and marking recursion: if all shapes
    had different identifiers before, they have different ones afterwards,
    whether there was an error or not. *)
Theorem C41_unique : forall n E l g nm t loc a fs s, numbered s ->
  numbered (snd (make_base nm loc s)) /\ numbered (snd (make_new nm t loc s))
  /\ numbered (snd (make_concrete a t fs s)) /\ numbered (snd (make_recursive a s))
  /\ numbered (snd (resolve_all n E l g s)) /\ numbered (snd (mark_all n l s)).
Proof.
  intros. split; [|split; [|split; [|split; [|split]]]]; (eapply numbers_numbered; [|eassumption]).
  - apply numbers_make_base.
  - apply make_new_ids.
  - apply make_concrete_ids.
  - apply make_recursive_ids.
  - apply resolve_all_ids.
  - apply mark_all_ids.
Qed.
Print Assumptions C41_unique.

(** The first shape, and the second. *)
Example C41_case : exists s1 s2 b1 b2, numbered (St [] [] 0%Z)
  /\ make_new "" "string" "lib" (St [] [] 0%Z) = (Ok 3, s1) /\ make_new "" "union" "lib" s1 = (Ok 7, s2)
  /\ get_base (heap s2) 3 = Some b1 /\ get_base (heap s2) 7 = Some b2 /\ b_id b1 = 1%Z /\ b_id b2 = 2%Z.
Proof.
  eexists. eexists. eexists. eexists. split.
  { split; [intros x b G|intros x y bx by_ G]; destruct x; discriminate G. }
  split; [vm_compute; reflexivity|]. split; [vm_compute; reflexivity|]. split; [reflexivity|]. repeat split.
Qed.

(** Unwrapping a type whose parent is a union copies it and gives only the
    root of the copy a new identifier.
    [P: Q | string; Q: object; C: {type: P, properties: {a: string}}]. *)
Definition m41 : st := model
  [Decl "P" "union" (SUnion 20 None) [] None; Decl "Q" "object" (SObject (ObjF None None None None None None None)) [] None;
   Decl "C" "object" (obj 21) [0] None; Decl "a" "string" (SStr estr) [] None;
   Decl "" "string" (SStr estr) [] None]
  [CSlice [4; 16]; CProps [("a", Prop_ "a" 12 true)]].

Theorem C41_unwrapping_refuted : exists n a s r s' x y bx by_,
  fresh_model (heap s) /\ numbered s /\ unwrap n a s = (Ok r, s')
  /\ get_base (heap s') x = Some bx /\ get_base (heap s') y = Some by_ /\ x <> y /\ b_id bx = b_id by_.
Proof.
  exists 9, 8, m41, 22. eexists. exists 12, 36. eexists. eexists.
  assert (F : fresh_model (heap m41)) by (apply fresh_b_sound; vm_compute; reflexivity).
  split; [exact F|]. split.
  { split; [|intros x y bx by_ X Y Q; destruct F as (_ & U & _); exact (U _ _ _ _ X Y Q)].
    assert (B : forallb (fun c => match c with CBase b => Z.leb (b_id b) (st_nextid m41) | _ => true end) (heap m41) = true)
      by (vm_compute; reflexivity).
    intros x b G. apply get_base_nth in G. apply nth_error_In in G.
    rewrite forallb_forall in B. specialize (B _ G). cbv beta iota in B. now apply Z.leb_le in B. }
  split; [vm_compute; reflexivity|]. split; [vm_compute; reflexivity|]. split; [vm_compute; reflexivity|].
  split; [discriminate|reflexivity].
Qed.
Print Assumptions C41_unwrapping_refuted.
