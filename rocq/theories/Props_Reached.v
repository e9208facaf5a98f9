(** Property theorem C80: unwrapping reaches every part of a type. *)
From Coq Require Import ZArith List String Bool Ascii Lia.
From Verif Require Import Base Scalars Heap Validate Names Yaml Pipeline Spec_Pipeline Decode Parse Spec_Calm Spec_Mark Spec_Validate Spec_Schema Spec_Parse
  Mark_values Props_Validate Props_Parse Props_Calm Props_Quiet Props_Back Props_Ready Props_Added Props_Documents.
From Verif Require Reached_proofs Pipeline_proofs Heap_lemmas Unwrap_flags Mark_proofs.
Import ListNotations.
Open Scope string_scope.
Open Scope list_scope.
Open Scope nat_scope.

(** * What holds *)

(** In a model without recursive shapes and flags, FindAndMarkRecursion on all
    types succeeds only if all their parts are unwrapped. *)
Theorem C80_marked : forall n l s s' a x,
  maps_keyed (heap s) -> (forall y b, get_base (heap s) y = Some b -> b_visited b = false /\ forall hd, b_shape b <> Some (SRec hd)) ->
  mark_all n l s = (Ok tt, s') -> In a l -> occurs (heap s') a x ->
  exists b, get_base (heap s') x = Some b /\ b_unwrapped b = true.
Proof.
  intros n l s s' a x K C E J Oc. refine (Reached_proofs.marked_reached n l s s' a x K _ _ E J Oc).
  - intros y. unfold flag. destruct (get_base (heap s) y) as [b|] eqn:G; [exact (proj1 (C _ _ G))|reflexivity].
  - intros y hd (b & G & Sh). exact (proj2 (C _ _ G) hd Sh).
Qed.
Print Assumptions C80_marked.

(** A document without unions and types of the kind any: when UnwrapShapes
    returns without an error, every part of every declared type is unwrapped. *)
Theorem C80_parsed_partial : forall E n O o1 o2 o3 text path ep p m q1 q2 R s loc a x,
  parse_string E n O o1 o2 o3 false false text path = (Ok ep, p) -> union_free (heap (p_st p)) -> any_free (heap (p_st p)) ->
  unwrap_shapes m q1 q2 (raml_of p) (p_st p) = (Ok R, s) -> In loc q2 -> declared_in R loc a -> occurs (heap s) a x ->
  exists b, get_base (heap s) x = Some b /\ b_unwrapped b = true.
Proof.
  intros E n O o1 o2 o3 text path ep p m q1 q2 R s loc a x P Un An U J D Oc.
  destruct (split_marks _ _ _ _ _ _ _ _ _ _ P Un An _ _ _ _ _ U) as (s1 & l & I & E3 & In3).
  refine (C80_marked m l s1 s a x (Unwrap_flags.i_keyed _ _ _ I) _ E3 (In3 _ _ J D) Oc).
  intros y b G. split.
  - pose proof (no_flag _ y I) as F. unfold flag in F. rewrite G in F. exact F.
  - intros hd Sh. destruct (Unwrap_flags.i_base _ _ _ I _ _ G) as [B _]. destruct (B _ Sh) as (_ & Nr & _). exact (Nr hd eq_refl).
Qed.
Print Assumptions C80_parsed_partial.

(** * Where the claim fails *)

(** [A: {properties: {p: {type: [O, U]}, q: string}}; U: X | Y; X: object;
    Y: object; O: {properties: {back: A}}]. *)
Definition obj80 (l : list (string * ynode)) : ynode := mp [("type", sc "object"); properties_of l].
Definition t80 : list (string * ynode) :=
  [("A", obj80 [("p", mp [("type", sq [sc "O"; sc "U"])]); ("q", sc "string")]); ("U", sc "X | Y");
   ("X", mp [("type", sc "object")]); ("Y", mp [("type", sc "object")]); ("O", obj80 [("back", sc "A")])].
Definition p80 : pst :=
  snd (parse_string (typed (library_of t80)) 40 exO [] [] [] false false (lib_head ++ "a.raml")%string "a.raml").

(** A step to a component, decided. *)
Definition step_b (h : list cell) (x y : addr) : bool :=
  match get_base h x with
  | Some b => match b_shape b with
              | Some (SRec _) | None => false
              | Some sh => existsb (Nat.eqb y) (kids h sh)
              end
  | None => false
  end.
Lemma step_b_ok h x y : step_b h x y = true -> visits h x y.
Proof.
  unfold step_b. destruct (get_base h x) as [b|] eqn:G; [|discriminate]. destruct (b_shape b) as [sh|] eqn:Sh; [|discriminate].
  intros H. assert (N : Mark_proofs.norec sh) by (intros hd ->; discriminate).
  assert (existsb (Nat.eqb y) (kids h sh) = true) as J by (destruct sh; try exact H; discriminate).
  apply existsb_exists in J. destruct J as (z & J & Ez). apply Nat.eqb_eq in Ez. subst z.
  exact (vi_child h x sh y (ex_intro _ b (conj G Sh)) N (proj1 (kids_iff h sh y N) J)).
Qed.
Fixpoint walk_b (h : list cell) (x : addr) (l : list addr) : bool :=
  match l with [] => true | y :: l' => step_b h x y && walk_b h y l' end.
Lemma last_cons {A} (l : list A) : forall x y, last (y :: l) x = last l y.
Proof. induction l as [|z l IH]; intros x y; [reflexivity|]. change (last (z :: l) x = last (z :: l) y). now rewrite !IH. Qed.
Lemma walk_b_ok h a : forall l x, occurs h a x -> walk_b h x l = true -> occurs h a (last l x).
Proof.
  induction l as [|y l IH]; intros x O H; [exact O|]. cbn [walk_b] in H. apply andb_prop in H. destruct H as [H1 H2].
  rewrite last_cons. apply IH; [|exact H2]. exact (oc_visit _ _ _ _ O (step_b_ok _ _ _ H1)).
Qed.

(** UnwrapShape of [A] returns without an error, but a part of it, a copy of
    the property q that was made while [A] was being unwrapped, is not
    unwrapped. *)
Theorem C80_shape_refuted : exists a r s x b,
  type_in p80 "A" = Some a /\ unwrap 40 a (p_st p80) = (Ok r, s)
  /\ occurs (heap s) r x /\ get_base (heap s) x = Some b /\ b_unwrapped b = false /\ b_type b = "string".
Proof.
  exists 3, 3, (snd (unwrap 40 3 (p_st p80))), 73.
  assert (O : occurs (heap (snd (unwrap 40 3 (p_st p80)))) 3 73).
  { refine (walk_b_ok _ 3 [8; 117; 55; 73] 3 (oc_refl _ _) _). vm_compute. reflexivity. }
  destruct (get_base (heap (snd (unwrap 40 3 (p_st p80)))) 73) as [b|] eqn:G; [|vm_compute in G; discriminate].
  exists b. split; [vm_compute; reflexivity|]. split.
  - rewrite (surjective_pairing (unwrap 40 3 (p_st p80))) at 1. f_equal.
  - split; [exact O|]. split; [reflexivity|]. vm_compute in G. injection G as <-. split; reflexivity.
Qed.
Print Assumptions C80_shape_refuted.

(** So UnwrapShapes refuses the document, and takes it when the same types are
    declared in the opposite order. *)
Theorem C80_order_refuted :
  fst (run (library_of t80) ["a.raml"]) = Err /\ fst (run (library_of (rev t80)) ["a.raml"]) = Ok (ELib 0).
Proof. split; vm_compute; reflexivity. Qed.
Print Assumptions C80_order_refuted.

(** * A case *)

(** The declared type [Sub] and a walk from it. *)
Definition sub_b (r : res raml) (h : list cell) (l : list addr) (x : addr) : bool :=
  match r with
  | Ok R =>
      match oget "a.raml" (r_frags R), nth_error (r_libs R) 0 with
      | Some (FLib 0), Some lib =>
          match oget "Sub" (l_types lib) with
          | Some a => walk_b h a l && Nat.eqb (last l a) x
          | None => false
          end
      | _, _ => false
      end
  | _ => false
  end.
Lemma sub_b_ok R h l x : sub_b (Ok R) h l x = true -> exists a, declared_in R "a.raml" a /\ occurs h a x.
Proof.
  unfold sub_b. intros X. destruct (oget "a.raml" (r_frags R)) as [[[|]| |]|] eqn:F; try discriminate X. destruct (nth_error (r_libs R) 0) as [lib|] eqn:N; [|discriminate X].
  destruct (oget "Sub" (l_types lib)) as [a|] eqn:G; [|discriminate X]. apply andb_prop in X. destruct X as [X Y]. apply Nat.eqb_eq in Y. exists a. split.
  - refine (di_type R "a.raml" a 0 lib "Sub" F N _). exact (Pipeline_proofs.oget_In _ _ _ G).
  - rewrite <- Y. exact (walk_b_ok h a l a (oc_refl _ _) X).
Qed.
Lemma sub_at d R s l x : fst (unwrapped1 d) = Ok R -> s = snd (unwrapped1 d) -> sub_b (fst (unwrapped1 d)) (heap (snd (unwrapped1 d))) l x = true ->
  exists a, declared_in R "a.raml" a /\ occurs (heap s) a x.
Proof. intros -> ->. apply sub_b_ok. Qed.

(** The library [d46q]: a recursive shape three steps below [Sub]. *)
Example C80_case : exists ep p R s a x hd, parse1 d46q 40 false false = (Ok ep, p) /\ union_free (heap (p_st p)) /\ any_free (heap (p_st p))
  /\ unwrap_shapes 40 ["a.raml"] ["a.raml"] (raml_of p) (p_st p) = (Ok R, s) /\ declared_in R "a.raml" a
  /\ occurs (heap s) a x /\ shape_at (heap s) x (SRec hd).
Proof.
  assert (G1 : fst (parse1 d46q 40 false false) = Ok (ELib 0)) by (vm_compute; reflexivity).
  assert (G2 : good (unwrapped1 d46q) = true) by (vm_compute; reflexivity).
  destruct (run_ok d46q G1 G2) as (p & R & s & P & U & Ep & Es & Ef).
  assert (Un : union_free (heap (p_st p))) by (apply (union_at d46q p Ep); vm_compute; reflexivity).
  assert (An : any_free (heap (p_st p))) by (apply (any_at d46q p Ep); vm_compute; reflexivity).
  assert (Sx : shape_at (heap s) 64 (SRec 29)) by (apply (found_at d46q s _ _ Es); vm_compute; reflexivity).
  assert (D : exists a, declared_in R "a.raml" a /\ occurs (heap s) a 64) by (apply (sub_at d46q R s [55; 59; 64] 64 Ef Es); vm_compute; reflexivity).
  clear Ep Es Ef. destruct D as (a & D & Oc). exists (ELib 0), p, R, s, a, 64, 29.
  split; [exact P|]. split; [exact Un|]. split; [exact An|]. split; [exact U|]. split; [exact D|]. split; [exact Oc|exact Sx].
Qed.
