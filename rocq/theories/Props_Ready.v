(** What can be done with the types of a parsed and unwrapped model: conversion
    to JSON Schema ends with a schema (C59), and the walks leave no flag behind
    (C18). *)
From Coq Require Import ZArith List String Bool Lia.
From Verif Require Import Base Scalars Heap Validate Names Yaml Pipeline Schema Convert Spec_Schema Spec_Model Spec_Pipeline Decode Parse Spec_Calm
  Spec_Mark Spec_Reason Heap_lemmas Mark_proofs Mark_values Unwrap_flags Mark_heads Props_Parse Props_Fresh Props_Calm Props_Quiet Props_Reason Props_Validate
  Props_Convert Props_Back Spec_Validate.
From Verif Require Parse_fresh Shapes_calm Model_calm Model_returns Validate_proofs.
Import ListNotations.
Open Scope string_scope.
Open Scope list_scope.
Open Scope nat_scope.

(** Marked types are unwrapped. *)
Lemma evolves_all n : forall l s r s', mark_all n l s = (r, s') -> evolves s s'.
Proof.
  induction l as [|a l IH]; intros s r s' H; cbn [mark_all] in H.
  - injection H as _ <-. apply evolves_refl.
  - pose proof (mark_evo n a s) as Ev. unfold pres_at, Heap_lemmas.after in Ev. unfold bind in H. destruct (mark n a s) as [[o| | |] s1]; cbn [snd] in Ev.
    + exact (evolves_trans _ _ _ Ev (IH _ _ _ H)).
    + injection H as _ <-. exact Ev.
    + injection H as _ <-. exact Ev.
    + injection H as _ <-. exact Ev.
Qed.
Lemma evolves_unwrapped s s' a b : evolves s s' -> get_base (heap s) a = Some b -> b_unwrapped b = true ->
  exists b', get_base (heap s') a = Some b' /\ b_unwrapped b' = true.
Proof.
  intros Ev G U. apply get_base_nth in G. destruct (Ev _ _ G) as (c & N & Le). destruct c as [b'| | | |]; cbn in Le; try contradiction.
  exists b'. split; [now apply get_base_nth|auto].
Qed.
Lemma marked_unwrapped n l : forall s s' a, mark_all n l s = (Ok tt, s') -> In a l -> exists b, get_base (heap s') a = Some b /\ b_unwrapped b = true.
Proof.
  induction l as [|x l IH]; intros s s' a H J; [destruct J|]. cbn [mark_all] in H. apply bind_inv in H. destruct H as (o & s1 & E & H).
  destruct J as [->|J]; [|exact (IH _ _ _ H J)]. pose proof (mark_evo n a s) as Ev. unfold pres_at, Heap_lemmas.after in Ev. rewrite E in Ev. cbn [snd] in Ev.
  destruct n as [|n]; [discriminate|]. cbn [mark] in E. apply rd_run in E. destruct E as [(b & G & E)|[E _]]; [|discriminate].
  destruct (b_unwrapped b) eqn:U; [|discriminate]. clear E.
  exact (evolves_unwrapped _ _ _ _ (evolves_trans _ _ _ Ev (evolves_all _ _ _ _ _ H)) G U).
Qed.

Section After.
Variable E : denv.
Variables (n : nat) (O : oracle) (o1 o2 o3 : list string) (text path : string) (ep : entry_point) (p : pst).
Hypothesis P : parse_string E n O o1 o2 o3 false false text path = (Ok ep, p).
Hypothesis Un : union_free (heap (p_st p)).
Hypothesis An : any_free (heap (p_st p)).
Variables (m : nat) (q1 q2 : list string) (R : raml) (s : st).
Hypothesis U : unwrap_shapes m q1 q2 (raml_of p) (p_st p) = (Ok R, s).

Lemma split_marks : exists s1 l, inv True (fun _ => False) (heap s1) /\ mark_all m l s1 = (Ok tt, s)
  /\ forall loc a, In loc q2 -> declared_in R loc a -> In a l.
Proof.
  destruct (unwrap_split _ _ _ _ _ _ _ U) as (u & s1 & E1 & Ok1 & E2 & El & Ef). rewrite <- El, <- Ef in E2.
  destruct (mark_fragments_all m R q2 s1 s E2) as (l & E3 & In3). exists s1, l. split; [|split; [exact E3|exact In3]].
  exact (unwrapped_flags _ _ _ _ _ _ _ _ _ _ True u m q1 s1 P Un (fun _ => An) E1 Ok1).
Qed.
Lemma no_flag h x : inv True (fun _ => False) h -> flag h x = false.
Proof.
  intros I. unfold flag. destruct (get_base h x) as [b|] eqn:G; [|reflexivity]. destruct (i_base _ _ _ I _ _ G) as [B B'].
  destruct (b_visited b); [|reflexivity]. exfalso. destruct (B' eq_refl) as [[]|Sa]. destruct (B _ Sa) as (_ & _ & Na). now destruct (Na Logic.I).
Qed.

Lemma heads_of_model x hd : shape_at (heap s) x (SRec hd) -> finite_descent (heap s) hd.
Proof.
  destruct split_marks as (s1 & l & I & E3 & _). refine (heads_finite m l s1 s (i_keyed _ _ _ I) (fun y => no_flag _ y I) _ E3 x hd).
  intros y z (b & G & Sh). destruct (i_base _ _ _ I _ _ G) as [B _]. destruct (B _ Sh) as (_ & Nr & _). exact (Nr z eq_refl).
Qed.

Lemma parts_finite a x : finite_descent (heap s) a -> occurs (heap s) a x -> finite_descent (heap s) x.
Proof.
  intros Fa. induction 1 as [|x y _ IH V|x hd _ IH Sx]; [exact Fa| |exact (heads_of_model _ _ Sx)].
  apply (Acc_inv IH). destruct V as [x sh c Sh Nr Ch|x b mm k pp G Nr Gm J]; [exact (ds_child _ _ _ _ Sh Nr Ch)|exact (ds_fdef _ _ _ _ _ _ G Gm J)].
Qed.

Hypothesis Pl : plain_enums (heap (p_st p)).
Let h0 := heap (p_st p).
Let lv := Shapes_calm.lv (Shapes_calm.live h0) (heap s).
Let all_fine := Shapes_calm.fine (Shapes_calm.live h0) (List.length h0) Shapes_calm.flat False True (heap s).

Lemma model_fine : all_fine /\ forall loc a, declared_in R loc a -> lv a Shapes_calm.TBase.
Proof.
  pose proof (Model_calm.parsed_libs _ _ _ _ _ _ _ _ _ _ P) as PL. pose proof (Model_calm.parsed_frags _ _ _ _ _ _ _ _ _ _ P) as PF.
  pose proof (Model_calm.parsed_exts _ _ _ _ _ _ _ _ _ _ P Pl Un) as PE. pose proof (Model_calm.parsed_wf _ _ _ _ _ _ _ _ _ _ P) as W.
  destruct (Shapes_calm.calm_unwrap_shapes _ _ (Shapes_calm.live_new h0) Shapes_calm.flat False True Shapes_calm.flat_none Shapes_calm.flat_inherit Logic.I (fun f => f)
    m q1 q2 (raml_of p) (p_st p) (Shapes_calm.free_fine _ W Pl Un) (conj (conj PL PF) PE)) as (_ & F & _ & C).
  rewrite U in F, C. cbn [fst snd] in F, C. destruct (C R eq_refl) as ((CL & CF) & _). split; [exact F|].
  intros loc a [l lib k _ J T|l lib k _ J T|uses J].
  - exact (proj1 (CL lib (nth_error_In _ _ J)) k a T).
  - exact (proj2 (CL lib (nth_error_In _ _ J)) k a T).
  - destruct (CF _ _ J) as (y & [= <-] & Y). exact Y.
Qed.

Lemma lv_children x sh c : all_fine -> lv x Shapes_calm.TBase -> shape_at (heap s) x sh -> child (heap s) sh c -> lv c Shapes_calm.TBase.
Proof.
  intros F Lx (b & G & Sh) Ch. destruct (Model_returns.lv_base _ _ _ _ _ F x Lx) as (b' & G' & Fb). assert (b' = b) by congruence. subst b'.
  destruct (Shapes_calm.f_shape _ _ _ _ _ _ Fb) as (sh' & Sh' & _ & Fs). assert (sh' = sh) by congruence. subst sh'.
  destruct Ch as [f i Hi|f ps k q Hp J|f ps k q Hp J|sl e l y Hl J|hd].
  - exact (Fs i Hi).
  - destruct Fs as [F1 _]. destruct (Model_returns.lv_props _ _ _ _ _ F _ F1) as (ps' & Op & Pv). apply Validate_proofs.opt_props_of in Op. rewrite (props_of_one _ _ _ _ Hp Op) in J. exact (Pv _ _ J).
  - destruct Fs as [_ F1]. destruct (Model_returns.lv_props _ _ _ _ _ F _ F1) as (ps' & Op & Pv). apply Validate_proofs.opt_props_of in Op. rewrite (props_of_one _ _ _ _ Hp Op) in J. exact (Pv _ _ J).
  - destruct Fs as [[] _].
  - exact (proj2 Fs).
Qed.

Lemma parts_live a x : all_fine -> lv a Shapes_calm.TBase -> occurs (heap s) a x -> lv x Shapes_calm.TBase.
Proof.
  intros F La. induction 1 as [|x y _ IH V|x hd _ IH Sx]; [exact La| |exact (lv_children _ _ _ F IH Sx (ch_head _ _))].
  destruct V as [x sh c Sh Nr Ch|x b mm k pp G Nr Gm J]; [exact (lv_children _ _ _ F IH Sh Ch)|].
  destruct (Model_returns.lv_base _ _ _ _ _ F x IH) as (b' & G' & Fb). assert (b' = b) by congruence. subst b'.
  destruct (Shapes_calm.f_fdefs _ _ _ _ _ _ Fb) as (Rm & c & N & _). apply get_props_nth in Gm. rewrite Gm in N. injection N as <-.
  pose proof (proj2 F _ _ Rm Gm) as Pv. exact (Pv _ _ J).
Qed.

Lemma live_enterable json x : all_fine -> lv x Shapes_calm.TBase -> (forall sh, shape_at (heap s) x sh -> convertible json (heap s) sh) -> enterable json (heap s) x.
Proof.
  intros F Lx Cv. destruct (Model_returns.lv_base _ _ _ _ _ F x Lx) as (b & G & Fb). destruct (Shapes_calm.f_shape _ _ _ _ _ _ Fb) as (sh & Sh & _ & Fs).
  destruct (Shapes_calm.f_fdefs _ _ _ _ _ _ Fb) as (_ & c & N & Sc). destruct c as [|fd| | |]; try discriminate.
  destruct (Shapes_calm.f_facets _ _ _ _ _ _ Fb) as (_ & c & N' & Sc'). destruct c as [| |fv| |]; try discriminate.
  exists b, sh, fd, fv. split; [exact G|]. split; [exact Sh|]. split; [now apply get_props_nth|]. split; [now apply get_facets_nth|].
  split; [|exact (Cv sh (ex_intro _ b (conj G Sh)))]. split.
  - intros y Ch. pose proof (lv_children x sh y F Lx (ex_intro _ b (conj G Sh)) Ch) as Ly. destruct (Model_returns.lv_base _ _ _ _ _ F y Ly) as (by_ & Gy & Fy).
    destruct (Shapes_calm.f_shape _ _ _ _ _ _ Fy) as (shy & Shy & _). exists shy, by_. auto.
  - destruct sh; try exact Logic.I.
    + destruct Fs as [F1 F2]. destruct (Model_returns.lv_props _ _ _ _ _ F _ F1) as (p1 & O1 & _). destruct (Model_returns.lv_props _ _ _ _ _ F _ F2) as (p2 & O2 & _).
      split; [exists p1|exists p2]; now apply Validate_proofs.opt_props_of.
    + destruct Fs as [[] _].
Qed.
End After.

(** * C59 *)

(** A document without unions, without types of the kind any and with plain enums
    is parsed and unwrapped. The conversion of each declared type whose parts are
    convertible ends with a schema, whatever the names of the types. *)
Theorem C59_parsed_partial : forall E n O o1 o2 o3 text path ep p m q1 q2 R s loc a dom json,
  parse_string E n O o1 o2 o3 false false text path = (Ok ep, p) -> plain_enums (heap (p_st p)) -> union_free (heap (p_st p)) -> any_free (heap (p_st p)) ->
  unwrap_shapes m q1 q2 (raml_of p) (p_st p) = (Ok R, s) -> In loc q2 -> declared_in R loc a ->
  (forall x sh, occurs (heap s) a x -> shape_at (heap s) x sh -> convertible json (heap s) sh) ->
  exists k S0, forall k', k <= k' -> convert k' true {| c_heap := heap s; c_dom := dom; c_json := json |} a = Ok S0.
Proof.
  intros E n O o1 o2 o3 text path ep p m q1 q2 R s loc a dom json P Pl Un An U J D Cv.
  destruct (split_marks _ _ _ _ _ _ _ _ _ _ P Un An _ _ _ _ _ U) as (s1 & l & _ & E3 & In3).
  destruct (marked_unwrapped _ _ _ _ _ E3 (In3 _ _ J D)) as (b & G & Ub).
  destruct (model_fine _ _ _ _ _ _ _ _ _ _ P Un _ _ _ _ _ U Pl) as (F & Ld).
  refine (C59_ends {| c_heap := heap s; c_dom := dom; c_json := json |} a b _ _ G Ub); cbn [c_heap c_json]; intros x Oc.
  - apply (live_enterable p s json x F); [|intros sh Sh; exact (Cv x sh Oc Sh)]. exact (parts_live p s a x F (Ld loc a D) Oc).
  - exact (parts_finite _ _ _ _ _ _ _ _ _ _ P Un An _ _ _ _ _ U a x (C28_parsed_partial _ _ _ _ _ _ _ _ _ _ _ _ _ _ _ _ _ P Un An U J D) Oc).
Qed.
Print Assumptions C59_parsed_partial.

(** * C18 *)

(** In such a document the walks of unwrapping and marking have taken back every
    ShapeVisited flag when UnwrapShapes returns. *)
Theorem C18_flags_partial : forall E n O o1 o2 o3 text path ep p m q1 q2 R s x b,
  parse_string E n O o1 o2 o3 false false text path = (Ok ep, p) -> union_free (heap (p_st p)) -> any_free (heap (p_st p)) ->
  unwrap_shapes m q1 q2 (raml_of p) (p_st p) = (Ok R, s) -> get_base (heap s) x = Some b -> b_visited b = false.
Proof.
  intros E n O o1 o2 o3 text path ep p m q1 q2 R s x b P Un An U G.
  destruct (split_marks _ _ _ _ _ _ _ _ _ _ P Un An _ _ _ _ _ U) as (s1 & l & I & E3 & _).
  destruct (T_mark_all m (fun _ => False) l s1 tt s (i_keyed _ _ _ I)) as (_ & _ & Fl & _ & _); [|exact E3|].
  - intros y z (c & Gy & Sh). destruct (i_base _ _ _ I _ _ Gy) as [B _]. destruct (B _ Sh) as (_ & Nr & _). destruct (Nr z eq_refl).
  - pose proof (Fl x) as Z. rewrite (no_flag _ x I) in Z. unfold flag in Z. rewrite G in Z. exact Z.
Qed.
Print Assumptions C18_flags_partial.

(** * Cases *)

(** Enough for every type of a heap to be convertible. *)
Definition conv_b (h : list cell) : bool :=
  forallb (fun c => match c with
    | CBase b => match b_shape b with Some (SFile _) | Some (SJSON _) => false | Some (SObject f) => match o_pprops f with None => true | _ => false end | _ => true end
    | _ => true end) h.
Lemma conv_b_ok json h x sh : conv_b h = true -> shape_at h x sh -> convertible json h sh.
Proof.
  intros H (b & G & S). unfold conv_b in H. rewrite forallb_forall in H. unfold get_base in G.
  destruct (nth_error h x) as [c|] eqn:N; [|discriminate]. apply nth_error_In in N. specialize (H c N). destruct c; try discriminate. injection G as ->. rewrite S in H.
  destruct sh; try exact Logic.I; try discriminate H. cbn [convertible]. destruct (o_pprops f) eqn:Eo; [discriminate H|].
  intros pl k p [[_ ->]|(m & X & _)] J; [destruct J|congruence].
Qed.
Lemma conv_at d s : s = snd (unwrapped1 d) -> conv_b (heap (snd (unwrapped1 d))) = true -> forall json x sh, shape_at (heap s) x sh -> convertible json (heap s) sh.
Proof. intros -> H json x sh. exact (conv_b_ok json _ x sh H). Qed.
Lemma plain_at d p : p = snd (parse1 d 40 false false) -> plain_heap (heap (p_st (snd (parse1 d 40 false false)))) = true -> plain_enums (heap (p_st p)).
Proof. intros -> H. exact (plain_heap_ok _ H). Qed.
Lemma ready1 d n ep p m q1 q2 R s loc a dom json : parse1 d n false false = (Ok ep, p) -> plain_enums (heap (p_st p)) -> union_free (heap (p_st p)) -> any_free (heap (p_st p)) ->
  unwrap_shapes m q1 q2 (raml_of p) (p_st p) = (Ok R, s) -> In loc q2 -> declared_in R loc a ->
  (forall x sh, occurs (heap s) a x -> shape_at (heap s) x sh -> convertible json (heap s) sh) ->
  exists k S0, forall k', k <= k' -> convert k' true {| c_heap := heap s; c_dom := dom; c_json := json |} a = Ok S0.
Proof. exact (C59_parsed_partial (on_disk d) n exO ["a.raml"] ["a.raml"] ["a.raml"] text46 "a.raml" ep p m q1 q2 R s loc a dom json). Qed.

(** The library [d46q], with a type that contains itself. *)
Example C59_parsed_case : exists ep p R s a, parse1 d46q 40 false false = (Ok ep, p)
  /\ plain_enums (heap (p_st p)) /\ union_free (heap (p_st p)) /\ any_free (heap (p_st p))
  /\ unwrap_shapes 40 ["a.raml"] ["a.raml"] (raml_of p) (p_st p) = (Ok R, s) /\ declared_in R "a.raml" a
  /\ (forall x sh, occurs (heap s) a x -> shape_at (heap s) x sh -> convertible (fun _ => Null) (heap s) sh)
  /\ exists k S0, forall k', k <= k' -> convert k' true {| c_heap := heap s; c_dom := fun _ => GNil; c_json := fun _ => Null |} a = Ok S0.
Proof.
  assert (G1 : fst (parse1 d46q 40 false false) = Ok (ELib 0)) by (vm_compute; reflexivity).
  assert (G2 : good (unwrapped1 d46q) = true) by (vm_compute; reflexivity).
  destruct (run_ok d46q G1 G2) as (p & R & s & P & U & Ep & Es & Ef).
  assert (Pl : plain_enums (heap (p_st p))) by (apply (plain_at d46q p Ep); vm_compute; reflexivity).
  assert (Un : union_free (heap (p_st p))) by (apply (union_at d46q p Ep); vm_compute; reflexivity).
  assert (An : any_free (heap (p_st p))) by (apply (any_at d46q p Ep); vm_compute; reflexivity).
  assert (Cv : forall json x sh, shape_at (heap s) x sh -> convertible json (heap s) sh) by (apply (conv_at d46q s Es); vm_compute; reflexivity).
  assert (D : exists a, declared_in R "a.raml" a) by (apply (base_at d46q R Ef); vm_compute; reflexivity).
  clear Ep Es Ef. destruct D as (a & D). exists (ELib 0), p, R, s, a.
  split; [exact P|]. split; [exact Pl|]. split; [exact Un|]. split; [exact An|]. split; [exact U|]. split; [exact D|].
  assert (Cv' : forall x sh, occurs (heap s) a x -> shape_at (heap s) x sh -> convertible (fun _ => Null) (heap s) sh) by (intros x sh _; apply Cv).
  split; [exact Cv'|]. exact (ready1 _ _ _ _ _ _ _ _ _ _ _ (fun _ => GNil) (fun _ => Null) P Pl Un An U (or_introl eq_refl) D Cv').
Qed.
