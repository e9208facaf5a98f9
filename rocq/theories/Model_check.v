(** A decision procedure for [fresh_model], for concrete heaps in examples and
    counterexamples, with its soundness proof. *)
From Coq Require Import ZArith List String Bool Lia.
From Verif Require Import Base Scalars Heap Heap_lemmas Spec_Validate Spec_Model.
Import ListNotations.
Open Scope string_scope.
Open Scope list_scope.
Open Scope nat_scope.

Definition isb (h : list cell) (a : addr) : bool :=
  match get_base h a with Some b => match b_shape b with Some _ => true | None => false end | None => false end.
Definition ispm (h : list cell) (a : addr) : bool :=
  match get_props h a with Some m => forallb (fun kp => isb h (p_base (snd kp))) m | None => false end.
Definition issl (h : list cell) (a : addr) : bool :=
  match get_slice h a with Some l => forallb (isb h) l | None => false end.
Definition optb {A} (f : A -> bool) (o : option A) : bool := match o with Some x => f x | None => true end.

Definition shape_b (h : list cell) (sh : shape) : bool :=
  match sh with
  | SArray f => optb (isb h) (a_items f)
  | SObject f => optb (ispm h) (o_props f) && optb (ispm h) (o_pprops f)
  | SUnion sl _ => issl h sl
  | SRec hd => isb h hd
  | _ => true
  end.

Definition base_w (h : list cell) (b : base) : bool :=
  match get_facets h (b_facets b) with Some _ => true | None => false end
  && ispm h (b_fdefs b) && issl h (b_inherits b) && optb (isb h) (b_alias b)
  && optb (fun d => match get_dt h d with Some (Some a) => isb h a | _ => false end) (b_link b)
  && match b_shape b with Some sh => shape_b h sh | None => false end.

Definition base_b (h : list cell) (b : base) : bool :=
  base_w h b && match b_shape b with Some (SRec _) => false | _ => true end
  && negb (b_visited b) && negb (b_unwrapped b).

Definition owned (b : base) : list addr :=
  b_facets b :: b_fdefs b :: b_inherits b ::
  match b_shape b with
  | Some (SObject f) => match o_props f with Some m => [m] | None => [] end
                        ++ match o_pprops f with Some m => [m] | None => [] end
  | Some (SUnion sl _) => [sl]
  | _ => []
  end.

Definition bases_of (h : list cell) : list base :=
  flat_map (fun c => match c with CBase b => [b] | _ => [] end) h.

Definition disjointb (l k : list addr) : bool :=
  forallb (fun x => negb (existsb (Nat.eqb x) k)) l.

Fixpoint apart (l : list base) : bool :=
  match l with
  | [] => true
  | b :: l' => forallb (fun b' => negb (Z.eqb (b_id b) (b_id b')) && disjointb (owned b) (owned b')) l'
               && apart l'
  end.

Definition wf_b (h : list cell) : bool := forallb (base_w h) (bases_of h).

Fixpoint ids_b (l : list base) : bool :=
  match l with
  | [] => true
  | b :: l' => forallb (fun b' => negb (Z.eqb (b_id b) (b_id b'))) l' && ids_b l'
  end.

Definition fresh_b (h : list cell) : bool := forallb (base_b h) (bases_of h) && apart (bases_of h).

Lemma isb_ok h a : isb h a = true -> exists sh, shape_at h a sh.
Proof.
  unfold isb. destruct (get_base h a) as [b|] eqn:E; [|discriminate].
  destruct (b_shape b) eqn:E'; [|discriminate]. intros _. exists s, b. auto.
Qed.

Lemma shape_at_base h a sh : shape_at h a sh -> exists b, get_base h a = Some b.
Proof. intros (b & A & _). eauto. Qed.

Lemma ispm_ok h a : ispm h a = true -> exists m, get_props h a = Some m
  /\ forall k p, In (k, p) m -> exists sh, shape_at h (p_base p) sh.
Proof.
  unfold ispm. destruct (get_props h a) as [m|]; [|discriminate]. intros H.
  exists m. split; auto. intros k p I. rewrite forallb_forall in H. apply (H (k, p)) in I.
  now apply isb_ok.
Qed.

Lemma issl_ok h a : issl h a = true -> exists l, get_slice h a = Some l
  /\ forall x, In x l -> exists sh, shape_at h x sh.
Proof.
  unfold issl. destruct (get_slice h a) as [l|]; [|discriminate]. intros H.
  exists l. split; auto. intros x I. rewrite forallb_forall in H. apply H in I. now apply isb_ok.
Qed.

Lemma optpm_ok h o : optb (ispm h) o = true -> exists ps, props_of h o ps
  /\ forall k p, In (k, p) ps -> exists sh, shape_at h (p_base p) sh.
Proof.
  destruct o as [m|]; simpl; intros H.
  - apply ispm_ok in H. destruct H as (l & E & K). exists l. split; auto. right. eauto.
  - exists []. split; [now left|intros k p []].
Qed.

Lemma props_of_inj h o ps ps' : props_of h o ps -> props_of h o ps' -> ps = ps'.
Proof. intros [[-> ->]|(m & -> & E)] [[? ->]|(m' & X & E')]; try congruence. Qed.

Lemma shape_b_ok h sh : shape_b h sh = true -> closed_shape h sh.
Proof.
  intros H. destruct sh; simpl in H; try discriminate;
    try (split; [intros c K; inversion K|exact I]; fail).
  - split; [|exact I]. intros c K. inversion K; subst. rewrite H1 in H. simpl in H. now apply isb_ok.
  - apply andb_prop in H. destruct H as [H1 H2]. apply optpm_ok in H1, H2.
    destruct H1 as (ps & P1 & Q1), H2 as (pps & P2 & Q2). split; [|eauto].
    intros c K. inversion K; subst.
    + rewrite (props_of_inj _ _ _ _ H0 P1) in *. eauto.
    + rewrite (props_of_inj _ _ _ _ H0 P2) in *. eauto.
  - apply issl_ok in H. destruct H as (l & E & K). split; [|eauto].
    intros c C. inversion C; subst. replace l0 with l in * by congruence. auto.
  - split; [|exact I]. intros c K. inversion K; subst. now apply isb_ok.
Qed.

Lemma in_bases_of h a b : get_base h a = Some b -> In b (bases_of h).
Proof.
  intros E. apply get_base_nth in E. apply nth_error_In in E. unfold bases_of.
  apply in_flat_map. exists (CBase b). simpl. auto.
Qed.

Lemma owns_owned b c : owns b c -> In c (owned b).
Proof.
  unfold owned. intros H. inversion H as [| | |f m E1 E2|f m E1 E2|sl e E1]; subst; simpl; auto.
  - rewrite E1, E2. simpl. auto.
  - rewrite E1, E2. right. right. right. apply in_or_app. simpl. auto.
  - rewrite E1. simpl. auto.
Qed.


Lemma apart_at h : apart (bases_of h) = true -> forall a b a' b', a < a' ->
  get_base h a = Some b -> get_base h a' = Some b' ->
  b_id b <> b_id b' /\ disjointb (owned b) (owned b') = true.
Proof.
  induction h as [|c h IH]; intros H a b a' b' L E E'; [destruct a; discriminate|].
  destruct a' as [|a']; [lia|].
  assert (E2 : get_base h a' = Some b') by exact E'.
  destruct a as [|a].
  - destruct c; try discriminate. injection E as ->. simpl in H. apply andb_prop in H. destruct H as [H _].
    rewrite forallb_forall in H. specialize (H b' (in_bases_of _ _ _ E2)). apply andb_prop in H.
    destruct H as [H1 H2]. split; auto. apply negb_true_iff in H1. now apply Z.eqb_neq in H1.
  - assert (E1 : get_base h a = Some b) by exact E. apply (IH) with (a := a) (a' := a'); auto; [|lia].
    destruct c; simpl in H; auto. now apply andb_prop in H.
Qed.

Lemma disjointb_ok l k x : disjointb l k = true -> In x l -> In x k -> False.
Proof.
  unfold disjointb. rewrite forallb_forall. intros H I K. apply H in I. apply negb_true_iff in I.
  assert (existsb (Nat.eqb x) k = true); [|congruence]. apply existsb_exists. exists x. split; auto.
  apply Nat.eqb_refl.
Qed.

Theorem wf_b_sound h : wf_b h = true -> wf_heap h.
Proof.
  unfold wf_b. rewrite forallb_forall. intros HB a b E. apply in_bases_of in E. apply HB in E.
  unfold base_w in E. repeat (apply andb_prop in E; destruct E as [E ?]).
  match goal with H : ispm _ _ = true |- _ => apply ispm_ok in H; destruct H as (m & F & Fm) end.
  match goal with H : issl _ _ = true |- _ => apply issl_ok in H; destruct H as (l & L & Ll) end.
  destruct (b_shape b) as [sh|] eqn:S; [|discriminate].
  match goal with H : shape_b _ _ = true |- _ => apply shape_b_ok in H; rename H into HSH end.
  split.
  + split; [destruct (get_facets h (b_facets b)); [eauto|discriminate]|].
    split; [eauto|]. split; [eauto|]. split; [|eauto].
    intros d Ed. rewrite Ed in *. simpl in *. destruct (get_dt h d) as [[x|]|]; try discriminate. eauto.
  + intros c R. assert (exists sh, shape_at h c sh) as (sh' & X); [|eapply shape_at_base; eauto].
    inversion R as [m' k p E1 E2|a' E1|l' a' E1 E2|d a' E1 E2|sh' a' E1 E2]; subst.
    * replace m' with m in * by congruence. eauto.
    * rewrite E1 in *. now apply isb_ok.
    * replace l' with l in * by congruence. eauto.
    * rewrite E1 in *. simpl in *. rewrite E2 in *. now apply isb_ok.
    * replace sh' with sh in * by congruence. destruct HSH as [HS _]. auto.
Qed.

Theorem ids_b_sound h : ids_b (bases_of h) = true -> ids_unique h.
Proof.
  assert (K : forall h, ids_b (bases_of h) = true -> forall a b a' b', a < a' ->
    get_base h a = Some b -> get_base h a' = Some b' -> b_id b <> b_id b').
  { clear. induction h as [|c h IH]; intros H a b a' b' L E E'; [destruct a; discriminate|].
    destruct a' as [|a']; [lia|]. assert (E2 : get_base h a' = Some b') by exact E'.
    destruct a as [|a].
    - destruct c; try discriminate. injection E as ->. simpl in H. apply andb_prop in H. destruct H as [H _].
      rewrite forallb_forall in H. specialize (H b' (in_bases_of _ _ _ E2)).
      apply negb_true_iff in H. now apply Z.eqb_neq in H.
    - assert (E1 : get_base h a = Some b) by exact E. apply (IH) with (a := a) (a' := a'); auto; [|lia].
      destruct c; simpl in H; auto. now apply andb_prop in H. }
  intros H a b a' b' E E' I. destruct (Nat.lt_trichotomy a a') as [L|[L|L]]; auto; exfalso.
  - eapply (K h H a b a' b'); eauto.
  - eapply (K h H a' b' a b); eauto.
Qed.

Theorem fresh_b_sound h : fresh_b h = true -> fresh_model h.
Proof.
  unfold fresh_b. intros H. apply andb_prop in H. destruct H as [HB HA]. rewrite forallb_forall in HB.
  assert (AT : forall a b, get_base h a = Some b -> base_b h b = true) by (intros; eauto using in_bases_of).
  split; [|split; [|split]].
  - apply wf_b_sound. apply forallb_forall. intros b I. apply HB in I. unfold base_b in I.
    do 3 (apply andb_prop in I; destruct I as [I ?]). exact I.
  - intros a b a' b' E E' I. destruct (Nat.lt_trichotomy a a') as [L|[L|L]]; auto.
    + destruct (apart_at h HA a b a' b' L E E'). contradiction.
    + destruct (apart_at h HA a' b' a b L E' E). congruence.
  - intros a b a' b' c E E' O O'. apply owns_owned in O, O'.
    destruct (Nat.lt_trichotomy a a') as [L|[L|L]]; auto; exfalso.
    + destruct (apart_at h HA a b a' b' L E E'). eapply disjointb_ok; eauto.
    + destruct (apart_at h HA a' b' a b L E' E). eapply disjointb_ok; eauto.
  - intros a b E. apply AT in E. unfold base_b in E. do 3 (apply andb_prop in E; destruct E as [E ?]).
    repeat match goal with H : negb _ = true |- _ => apply negb_true_iff in H end.
    repeat split; auto. intros hd X. rewrite X in *. discriminate.
Qed.

(** * A builder for example models *)

(** What an example says about a type. *)
Record decl := Decl {
  d_name : string;
  d_type : string;
  d_shape : shape;
  d_inherits : list addr;
  d_alias : option addr
}.

(** The base of the [i]-th declaration is at [4 * i]; its maps follow it. *)
Definition decl_cells (i : nat) (d : decl) : list cell :=
  [CBase (Base (Z.of_nat i + 1) (d_name d) "" (d_type d) None None None None None None []
            (4 * i + 3) (d_alias d) None (4 * i + 1) (4 * i + 2) false false (Some (d_shape d)));
   CFacets []; CProps []; CSlice (d_inherits d)].

Fixpoint decls_cells (i : nat) (l : list decl) : list cell :=
  match l with
  | [] => []
  | d :: l' => decl_cells i d ++ decls_cells (S i) l'
  end.

(** The extra maps and slices start at [4 * length l]. *)
Definition model (l : list decl) (extra : list cell) : st :=
  St (decls_cells 0 l ++ extra) [] (Z.of_nat (List.length l)).
