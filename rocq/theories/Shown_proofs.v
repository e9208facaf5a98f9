(** Proofs about the schema of a type, facet by facet (C64). *)
From Coq Require Import ZArith List String Ascii Bool Lia.
From Verif Require Import Base Scalars Heap Schema Convert Spec_Validate Spec_Schema Spec_Describe Spec_Shown Convert_proofs Describe_proofs.
From Verif Require Spec_Decode Yaml_proofs Convert_meaning_proofs Convert_top_proofs.
Import ListNotations.
Open Scope string_scope.
Open Scope list_scope.

(** * Texts and maps *)

Lemma substring_whole s : substring 0 (String.length s) s = s.
Proof. induction s as [|c s IH]; simpl; [reflexivity|now rewrite IH]. Qed.

Lemma front s n : String.length s = S n -> exists y, s = (substring 0 n s ++ String y "")%string.
Proof.
  revert n. induction s as [|c s IH]; intros n L; [discriminate|]. simpl in L. injection L as L.
  destruct n as [|n].
  - destruct s; [|discriminate]. exists c. reflexivity.
  - destruct (IH n L) as (y & Y). exists y. simpl. now rewrite Y at 1.
Qed.

Lemma unslash_between k q : unslash k = Some q -> between k q.
Proof.
  unfold unslash. destruct (blen k <? 2)%Z eqn:B; [discriminate|]. intros H. injection H as <-.
  apply Z.ltb_ge in B. unfold blen in B. destruct k as [|x k]; [simpl in B; lia|]. destruct k as [|y k]; [simpl in B; lia|].
  destruct (front (String y k) (String.length k) eq_refl) as (z & Z). exists x, z.
  f_equal. rewrite Z at 1. f_equal. cbn [String.length Nat.sub substring]. rewrite Nat.sub_0_r. reflexivity.
Qed.

Lemma stored_oset {A} l (m : list (string * A)) k v : stored l m -> stored (l ++ [(k, v)]) (oset k v m).
Proof.
  intros H.
  assert (G : forall m, (~ In k (map fst m) /\ oset k v m = m ++ [(k, v)])
              \/ exists m1 w m2, m = m1 ++ (k, w) :: m2 /\ oset k v m = m1 ++ (k, v) :: m2).
  { clear. induction m as [|[k0 w] m IH]; simpl; [left; auto|]. destruct (String.eqb k k0) eqn:K.
    - apply String.eqb_eq in K. subst k0. right. exists [], w, m. auto.
    - destruct IH as [[N ->]|(m1 & w1 & m2 & -> & ->)].
      + left. split; auto. apply String.eqb_neq in K. intros [Q|Q]; [congruence|auto].
      + right. exists ((k0, w) :: m1), w1, m2. auto. }
  destruct (G m) as [[N ->]|(m1 & w & m2 & -> & ->)]; [now apply st_new|eapply st_again; eauto].
Qed.

(** * Every type *)

Section S.
Variable E : cenv.
Variable a0 : addr.
Let h := c_heap E.

(** Definitions stay, and new ones are those of heads. *)
Record gains (d d' : omap schema) : Prop := {
  ga_keep : forall n s, oget n d = Some s -> oget n d' = Some s;
  ga_new : forall n s, oget n d' = Some s -> oget n d = Some s
    \/ exists r hd hb, occurs h a0 r /\ shape_at h r (SRec hd) /\ get_base h hd = Some hb /\ b_name hb = n /\ shown E hd s;
  ga_nodup : NoDup (map fst d) -> NoDup (map fst d')
}.
Lemma gains_refl d : gains d d.
Proof. split; auto. Qed.
Lemma gains_trans d1 d2 d3 : gains d1 d2 -> gains d2 d3 -> gains d1 d3.
Proof.
  intros G1 G2. split.
  - intros n s K. apply (ga_keep _ _ G2). now apply (ga_keep _ _ G1).
  - intros n s K. destruct (ga_new _ _ G2 _ _ K) as [K2|K2]; auto. destruct (ga_new _ _ G1 _ _ K2); auto.
  - intros N. apply (ga_nodup _ _ G2). now apply (ga_nodup _ _ G1).
Qed.

Definition does (m : C schema) (Q : schema -> Prop) : Prop := forall d s d', m d = Ok (s, d') -> gains d d' /\ Q s.

Section Body.
Variable rec : addr -> C schema.
Hypothesis Hrec : forall a, occurs h a0 a -> does (rec a) (shown E a).

Lemma cmap_does l : (forall k p, In (k, p) l -> occurs h a0 (p_base p)) -> forall d r d', cmap (fun p => rec (p_base p)) l d = Ok (r, d') ->
  gains d d' /\ Forall2 (fun kp ks => fst kp = fst ks /\ shown E (p_base (snd kp)) (snd ks)) l r.
Proof.
  induction l as [|[k p] l IH]; intros OC d r d' H; simpl in H.
  - apply cret_ok in H. destruct H as [-> ->]. split; [apply gains_refl|constructor].
  - apply cbind_ok in H. destruct H as (y & d1 & H1 & H). apply cbind_ok in H. destruct H as (ys & d2 & H2 & H).
    apply cret_ok in H. destruct H as [-> ->]. destruct (Hrec _ (OC k p (or_introl eq_refl)) _ _ _ H1) as (G1 & M).
    destruct (IH (fun k' p' I => OC k' p' (or_intror I)) _ _ _ H2) as (G2 & F).
    split; [eapply gains_trans; eauto|constructor; auto].
Qed.

Lemma clist_does l : (forall p, In p l -> occurs h a0 p) -> forall d r d', clist rec l d = Ok (r, d') ->
  gains d d' /\ Forall2 (shown E) l r.
Proof.
  induction l as [|p l IH]; intros OC d r d' H; simpl in H.
  - apply cret_ok in H. destruct H as [-> ->]. split; [apply gains_refl|constructor].
  - apply cbind_ok in H. destruct H as (y & d1 & H1 & H). apply cbind_ok in H. destruct H as (ys & d2 & H2 & H).
    apply cret_ok in H. destruct H as [-> ->]. destruct (Hrec _ (OC p (or_introl eq_refl)) _ _ _ H1) as (G1 & M).
    destruct (IH (fun p' I => OC p' (or_intror I)) _ _ _ H2) as (G2 & F).
    split; [eapply gains_trans; eauto|constructor; auto].
Qed.

Lemma patterns_does l : (forall k p, In (k, p) l -> occurs h a0 (p_base p)) -> forall l0 acc d r d',
  visit_patterns rec l acc d = Ok (r, d') -> stored l0 acc ->
  gains d d' /\ exists qs, Forall2 (fun kp ks => between (fst kp) (fst ks) /\ shown E (p_base (snd kp)) (snd ks)) l qs /\ stored (l0 ++ qs) r.
Proof.
  induction l as [|[k p] l IH]; intros OC l0 acc d r d' H St; simpl in H.
  - apply cret_ok in H. destruct H as [-> ->]. split; [apply gains_refl|]. exists []. split; [constructor|now rewrite app_nil_r].
  - apply cbind_ok in H. destruct H as (k' & d0 & H0 & H). apply cread_ok in H0. destruct H0 as [U ->].
    apply cbind_ok in H. destruct H as (y & d1 & H1 & H).
    destruct (Hrec _ (OC k p (or_introl eq_refl)) _ _ _ H1) as (G1 & M).
    destruct (IH (fun k' p' I => OC k' p' (or_intror I)) (l0 ++ [(k', y)]) _ _ _ _ H (stored_oset _ _ _ _ St)) as (G2 & qs & F & S2).
    split; [eapply gains_trans; eauto|]. exists ((k', y) :: qs). split.
    + constructor; auto. split; [now apply unslash_between|exact M].
    + rewrite <- app_assoc in S2. exact S2.
Qed.

Definition extras_of (b : base) (x : extras) : Prop :=
  noted E b (fst (fst x)) (snd x)
  /\ exists fl, get_props h (b_fdefs b) = Some fl
     /\ listed (fun kp ks => fst kp = fst ks /\ shown E (p_base (snd kp)) (snd ks)) fl (snd (fst x)).

Lemma wrap_does a b d x d' : occurs h a0 a -> get_base h a = Some b -> (forall hd, b_shape b <> Some (SRec hd)) ->
  wrap_base E rec b d = Ok (x, d') -> gains d d' /\ extras_of b x.
Proof.
  intros OC G NR H. unfold wrap_base in H. apply cbind_ok in H. destruct H as (fd & d0 & H0 & H). apply cread_ok in H0. destruct H0 as [Fd ->].
  apply cbind_ok in H. destruct H as (fs & d1 & H1 & H). apply cbind_ok in H. destruct H as (fv & d2 & H2 & H).
  apply cread_ok in H2. destruct H2 as [Fv ->]. apply cret_ok in H. destruct H as [-> ->].
  assert (OCf : forall k p, In (k, p) fd -> occurs h a0 (p_base p)).
  { intros k p I. eapply oc_visit; [exact OC|]. eapply vi_facet; eauto. }
  destruct (cmap_does _ OCf _ _ _ H1) as (Gg & F2). split; [exact Gg|]. split; [split|].
  - simpl. split; [|now intros ->].
    assert (Q : forall l, Forall2 (fun (k : string * Z) x => fst k = fst x /\ snd x = c_dom E (snd k)) l (map (fun kz => (fst kz, c_dom E (snd kz))) l)).
    { induction l; simpl; constructor; auto. }
    destruct (b_domain b) eqn:D; [constructor|]. simpl. rewrite <- D. rewrite D. apply Q.
  - exists fv. split; [exact Fv|]. simpl. split; [|now intros ->].
    assert (Q : forall l : list (string * gval), Forall2 eq l l) by (induction l; constructor; auto).
    destruct fv; [constructor|]. apply Q.
  - exists fd. split; [exact Fd|]. simpl. split.
    + destruct fs; exact F2.
    + intros ->. inversion F2; subst. reflexivity.
Qed.

Lemma node_node k an its ps pps x : node_with k an its ps pps x = node k an its ps pps (fst (fst x)) (snd (fst x)) (snd x).
Proof. reflexivity. Qed.

Lemma leaf_does a b sh f : occurs h a0 a -> (forall hd, sh <> SRec hd) -> get_base h a = Some b -> b_shape b = Some sh ->
  scalar_words b sh (f (meta b)) -> does (visit_leaf E rec b f) (shown E a).
Proof.
  intros OC NR G Sh W d s d' H. unfold visit_leaf in H. apply cbind_ok in H. destruct H as (x & d1 & H1 & H).
  assert (NR' : forall hd, b_shape b <> Some (SRec hd)) by (intros hd Q; rewrite Sh in Q; injection Q as Q; exact (NR hd Q)).
  destruct (wrap_does a b d x d1 OC G NR' H1) as (G1 & N & fl & Gf & Lf). apply cret_ok in H. destruct H as [-> ->]. split; auto.
  rewrite node_node. eapply sn_scalar; eauto.
Qed.

Lemma map_does o d r d' : (forall l k p, props_of h o l -> In (k, p) l -> occurs h a0 (p_base p)) -> visit_map E rec o d = Ok (r, d') ->
  gains d d' /\ exists l, map_of E o l /\ (l = None <-> r = None)
    /\ Forall2 (fun kp ks => fst kp = fst ks /\ shown E (p_base (snd kp)) (snd ks)) (entries l) (entries r).
Proof.
  intros OC. unfold visit_map. destruct o as [m|]; intros H.
  - apply cbind_ok in H. destruct H as (l & d0 & H0 & H). apply cread_ok in H0. destruct H0 as [G0 ->].
    apply cbind_ok in H. destruct H as (r0 & d1 & H1 & H). apply cret_ok in H. destruct H as [-> ->].
    destruct (cmap_does l (fun k p I => OC l k p (or_intror (ex_intro _ m (conj eq_refl G0))) I) _ _ _ H1) as (G & F).
    split; auto. exists (Some l). split; [exact G0|]. split; [split; discriminate|exact F].
  - apply cret_ok in H. destruct H as [-> ->]. split; [apply gains_refl|]. exists None. split; [exact I|]. split; [tauto|constructor].
Qed.

Lemma body_does a : occurs h a0 a -> does (visit_body E rec a) (shown E a).
Proof.
  intros OC d s d' H. unfold visit_body in H. apply cbind_ok in H. destruct H as (b & d0 & H0 & H).
  apply cread_ok in H0. destruct H0 as [G ->]. fold h in G.
  destruct (b_shape b) as [sh|] eqn:Sh; [|apply cret_ok in H; destruct H as [-> ->]; split; [apply gains_refl|eapply sn_none; eauto]].
  assert (Leaf : forall f, (forall hd, sh <> SRec hd) -> scalar_words b sh (f (meta b)) -> visit_leaf E rec b f d = Ok (s, d') -> gains d d' /\ shown E a s).
  { intros f NR W Q. exact (leaf_does a b sh f OC NR G Sh W d s d' Q). }
  assert (NRb : (forall hd, sh <> SRec hd) -> forall hd, b_shape b <> Some (SRec hd)).
  { intros NR hd Q. rewrite Sh in Q. injection Q as Q. exact (NR hd Q). }
  assert (Sa : shape_at h a sh) by (exists b; split; [exact G|exact Sh]).
  destruct sh as [| |f|f|f|f|e|f| | | |f|f|sl e|raw| |hd].
  - eapply Leaf; [discriminate| |exact H]. constructor.
  - eapply Leaf; [discriminate| |exact H]. constructor.
  - eapply Leaf; [discriminate| |exact H]. constructor.
  - eapply Leaf; [discriminate| |exact H]. constructor.
  - eapply Leaf; [discriminate| |exact H]. pose proof (sw_string b f) as W. destruct (sf_pat f); exact W.
  - (* file *)
    unfold visit_file in H. apply cbind_ok in H. destruct H as (x & d1 & H1 & H).
    destruct (wrap_does _ _ _ _ _ OC G (NRb ltac:(discriminate)) H1) as (Gr & N & fl & Gf & Lf).
    destruct (ff_types f) as [[|[] ?]|] eqn:T; try discriminate H; apply cret_ok in H; destruct H as [-> ->]; (split; [exact Gr|]);
      rewrite node_node; eapply sn_scalar; eauto; [eapply (sw_file_type b f)|eapply (sw_file b f)]; eauto.
  - eapply Leaf; [discriminate| |exact H]. constructor.
  - (* datetime *)
    eapply Leaf; [discriminate| |exact H]. cbv zeta. destruct f as [f|].
    + destruct (String.eqb f "rfc3339") eqn:K; [apply String.eqb_eq in K; subst f; apply sw_datetime; auto|].
      destruct (String.eqb f "rfc2616") eqn:K2; [apply String.eqb_eq in K2; subst f; apply sw_rfc2616|].
      apply String.eqb_neq in K. apply String.eqb_neq in K2. exact (sw_format b f K K2).
    + apply sw_datetime. auto.
  - eapply Leaf; [discriminate| |exact H]. constructor.
  - eapply Leaf; [discriminate| |exact H]. constructor.
  - eapply Leaf; [discriminate| |exact H]. constructor.
  - (* array *)
    unfold visit_array in H. apply cbind_ok in H. destruct H as (x & d1 & H1 & H).
    destruct (wrap_does _ _ _ _ _ OC G (NRb ltac:(discriminate)) H1) as (Gr & N & fl & Gf & Lf).
    apply cbind_ok in H. destruct H as (i & d2 & H2 & H). apply cret_ok in H. destruct H as [-> ->].
    assert (Q : gains d1 d2 /\ (a_items f = None -> i = Null) /\ forall j, a_items f = Some j -> shown E j i).
    { destruct (a_items f) as [ia|] eqn:Ia.
      - assert (OCi : occurs h a0 ia) by (eapply oc_visit; [exact OC|]; eapply vi_child; [exact Sa|discriminate|now constructor]).
        destruct (Hrec _ OCi _ _ _ H2) as (G2 & M). split; auto. split; [discriminate|]. intros j Q. injection Q as <-. exact M.
      - apply cret_ok in H2. destruct H2 as [-> ->]. split; [apply gains_refl|]. split; [auto|discriminate]. }
    destruct Q as (G2 & Q1 & Q2). split; [eapply gains_trans; eauto|]. rewrite node_node. exact (sn_array E a b f i _ fl _ _ G Sh Q1 Q2 N Gf Lf).
  - (* object *)
    unfold visit_object in H. apply cbind_ok in H. destruct H as (x & d1 & H1 & H).
    destruct (wrap_does _ _ _ _ _ OC G (NRb ltac:(discriminate)) H1) as (Gr & N & fl & Gf & Lf).
    apply cbind_ok in H. destruct H as (ps & d2 & H2 & H).
    assert (OCp : forall l k p, props_of h (o_props f) l -> In (k, p) l -> occurs h a0 (p_base p)).
    { intros l k p L I. eapply oc_visit; [exact OC|]. eapply vi_child; [exact Sa|discriminate|]. eapply ch_prop; eauto. }
    assert (OCq : forall l k p, props_of h (o_pprops f) l -> In (k, p) l -> occurs h a0 (p_base p)).
    { intros l k p L I. eapply oc_visit; [exact OC|]. eapply vi_child; [exact Sa|discriminate|]. eapply ch_pprop; eauto. }
    destruct (map_does _ _ _ _ OCp H2) as (G2 & l & L & N2 & F2).
    apply cbind_ok in H. destruct H as (req & d3 & H3 & H).
    assert (Q : required_of (entries l) req /\ d3 = d2).
    { destruct (o_props f) as [m|] eqn:Om.
      - apply cbind_ok in H3. destruct H3 as (l' & d4 & H4 & H3). apply cread_ok in H4. destruct H4 as [G4 ->].
        apply cret_ok in H3. destruct H3 as [-> ->]. split; auto. destruct l as [l|]; [|destruct L]. simpl in L. fold h in L, G4.
        assert (l' = l) by congruence. subst l'. apply Convert_top_proofs.required_names_of.
      - apply cret_ok in H3. destruct H3 as [-> ->]. destruct l as [l|]; [destruct L|]. split; [constructor|reflexivity]. }
    destruct Q as [Rq ->].
    apply cbind_ok in H. destruct H as (pps & d4 & H4 & H). apply cret_ok in H. destruct H as [-> ->].
    assert (Q : gains d2 d4 /\ exists pl qs, map_of E (o_pprops f) pl /\ (pl = None <-> pps = None)
       /\ Forall2 (fun kp ks => between (fst kp) (fst ks) /\ shown E (p_base (snd kp)) (snd ks)) (entries pl) qs /\ stored qs (entries pps)).
    { destruct (o_pprops f) as [m|] eqn:Om.
      - apply cbind_ok in H4. destruct H4 as (pl & d5 & H5 & H4). apply cread_ok in H5. destruct H5 as [G5 ->].
        apply cbind_ok in H4. destruct H4 as (r & d5 & H6 & H4). apply cret_ok in H4. destruct H4 as [-> ->].
        destruct (patterns_does _ (fun k p I => OCq pl k p (or_intror (ex_intro _ m (conj eq_refl G5))) I) [] _ _ _ _ H6 st_nil) as (G6 & qs & Fq & Sq).
        split; auto. exists (Some pl), qs. split; [exact G5|]. split; [split; discriminate|]. auto.
      - apply cret_ok in H4. destruct H4 as [-> ->]. split; [apply gains_refl|]. exists None, []. split; [exact I|]. split; [tauto|]. split; constructor. }
    destruct Q as (G4 & pl & qs & PL & N4 & Fq & Sq).
    split; [eapply gains_trans; [exact Gr|eapply gains_trans; eauto]|]. rewrite node_node.
    exact (sn_object E a b f l ps pl qs pps req _ fl _ _ G Sh L PL N2 N4 F2 Fq Sq Rq N Gf Lf).
  - (* union *)
    unfold visit_union in H. apply cbind_ok in H. destruct H as (x & d1 & H1 & H).
    destruct (wrap_does _ _ _ _ _ OC G (NRb ltac:(discriminate)) H1) as (Gr & N & fl & Gf & Lf).
    apply cbind_ok in H. destruct H as (l & d2 & H2 & H). apply cread_ok in H2. destruct H2 as [Gl ->].
    apply cbind_ok in H. destruct H as (ms & d3 & H3 & H). apply cret_ok in H. destruct H as [-> ->].
    assert (OCm : forall p, In p l -> occurs h a0 p).
    { intros p I. eapply oc_visit; [exact OC|]. eapply vi_child; [exact Sa|discriminate|]. eapply ch_member; eauto. }
    destruct (clist_does _ OCm _ _ _ H3) as (G3 & F). split; [eapply gains_trans; eauto|]. rewrite node_node.
    exact (sn_union E a b sl e l ms _ fl _ _ G Sh Gl F N Gf Lf).
  - (* json *)
    unfold visit_json in H. apply cbind_ok in H. destruct H as (x & d1 & H1 & H).
    destruct (wrap_does _ _ _ _ _ OC G (NRb ltac:(discriminate)) H1) as (Gr & N & fl & Gf & Lf).
    destruct (recast (c_json E raw)) as [|k ds al an on nt it th el its ps pps pn aa ff xx] eqn:Rc; [discriminate|].
    apply cret_ok in H. destruct H as [-> ->]. split; auto.
    exact (sn_json E a b raw k ds al an on nt it th el its ps pps pn aa ff xx _ fl _ _ G Sh Rc N Gf Lf).
  - (* unknown *)
    apply cret_ok in H. destruct H as [-> ->]. split; [apply gains_refl|eapply sn_none; eauto].
  - (* recursive *)
    unfold visit_recursive in H. apply cbind_ok in H. destruct H as (hb & d0 & H0 & H). apply cread_ok in H0. destruct H0 as [Gh ->].
    apply cbind_ok in H. destruct H as (sh & d0 & H0 & H). apply cread_ok in H0. destruct H0 as [Shh ->].
    apply cbind_ok in H. destruct H as (seen & d0 & H0 & H). unfold defined in H0. inversion H0; subst seen d0. clear H0.
    apply cbind_ok in H. destruct H as ([] & d1 & H1 & H). apply cret_ok in H. destruct H as [-> ->].
    assert (OCh : occurs h a0 hd) by (eapply oc_head; eauto).
    split; [|exact (sn_rec E a hd hb Sa Gh)].
    destruct (oget (b_name hb) d) as [s0|] eqn:D0.
    + apply cret_ok in H1. destruct H1 as [_ ->]. apply gains_refl.
    + apply cbind_ok in H1. destruct H1 as ([] & d2 & H2 & H1). unfold define in H2. inversion H2; subst d2. clear H2.
      apply cbind_ok in H1. destruct H1 as (s1 & d2 & H2 & H1). unfold define in H1. inversion H1; subst d1. clear H1.
      destruct (Hrec _ OCh _ _ _ H2) as (G2 & M2).
      assert (Grow : forall n, n <> b_name hb -> oget n (oset (b_name hb) s1 d2) = oget n d2).
      { intros n N. rewrite oget_oset. apply String.eqb_neq in N. now rewrite N. }
      split.
      * intros n s2 K. assert (N : n <> b_name hb) by congruence. rewrite (Grow n N). apply (ga_keep _ _ G2).
        rewrite oget_oset. apply String.eqb_neq in N. now rewrite N.
      * intros n s2 K. destruct (String.eqb n (b_name hb)) eqn:Nn.
        -- apply String.eqb_eq in Nn. subst n. rewrite oget_oset, String.eqb_refl in K. injection K as <-. right. exists a, hd, hb.
           fold h in Gh. repeat (split; auto).
        -- pose proof Nn as Nn2. apply String.eqb_neq in Nn. rewrite (Grow n Nn) in K.
           destruct (ga_new _ _ G2 _ _ K) as [K2|K2]; auto. rewrite oget_oset, Nn2 in K2. auto.
      * intros N. apply Yaml_proofs.oset_keys, (ga_nodup _ _ G2), Yaml_proofs.oset_keys, N.
Qed.
End Body.

Lemma visit_does n a : occurs h a0 a -> does (visit n E a) (shown E a).
Proof.
  revert a. induction n as [|n IH]; intros a OC; [intros d s d' H; discriminate|].
  change (visit (S n) E a) with (visit_body E (visit n E) a). now apply body_does.
Qed.

Theorem convert_document n S0 : convert n true E a0 = Ok S0 -> document_for E a0 S0.
Proof.
  unfold convert. fold h. destruct (get_base h a0) as [b|] eqn:G; [|discriminate].
  destruct (b_shape b) as [sh|] eqn:Sh; [|discriminate]. destruct (b_unwrapped b) eqn:U; [|discriminate]. simpl negb. cbn iota.
  destruct (cbind _ _ _) as [[[] d]| | |] eqn:R; try discriminate. intros H. injection H as <-.
  apply cbind_ok in R. destruct R as ([] & d1 & R1 & R). unfold define in R1. inversion R1; subst d1. clear R1.
  apply cbind_ok in R. destruct R as (s & d1 & R1 & R). unfold define in R. inversion R; subst d. clear R.
  destruct (visit_does _ _ (oc_refl h a0) _ _ _ R1) as (Gr & M).
  assert (ND : NoDup (map fst (oset (b_name b) s d1))).
  { apply Yaml_proofs.oset_keys, (ga_nodup _ _ Gr). repeat constructor. intros []. }
  exists b, (oset (b_name b) s d1), s. split; [exact G|]. split; [reflexivity|]. split; [exact ND|].
  split; [apply in_oset|]. split; [exact M|].
  intros n0 s' K. destruct (String.eqb n0 (b_name b)) eqn:N; [left; now apply String.eqb_eq|right].
  apply in_oset_inv in K. destruct K as [[-> _]|K]; [rewrite String.eqb_refl in N; discriminate|].
  assert (K1 : oget n0 d1 = Some s').
  { apply Convert_meaning_proofs.oget_nodup; auto. apply (ga_nodup _ _ Gr). repeat constructor. intros []. }
  destruct (ga_new _ _ Gr _ _ K1) as [K2|K2]; [|exact K2]. simpl in K2. rewrite N in K2. discriminate.
Qed.
End S.

(** * Order (C48) *)

Lemma oset_firsts {A} l (m : list (string * A)) k v : firsts l (map fst m) -> firsts (l ++ [k]) (map fst (oset k v m)).
Proof.
  intros H.
  assert (G : (~ In k (map fst m) /\ map fst (oset k v m) = map fst m ++ [k]) \/ (In k (map fst m) /\ map fst (oset k v m) = map fst m)).
  { clear H. induction m as [|[k0 w] m IH]; simpl; [left; auto|]. destruct (String.eqb k k0) eqn:K.
    - apply String.eqb_eq in K. subst k0. right. auto.
    - destruct IH as [[N Q]|[N Q]]; simpl; rewrite Q.
      + left. split; auto. apply String.eqb_neq in K. intros [P|P]; [congruence|auto].
      + right. auto. }
  destruct G as [[N ->]|[N ->]]; [now apply fi_new|now apply fi_again].
Qed.

Lemma filled_firsts {A} R l (m : omap A) : Spec_Decode.filled R l m ->
  exists names, Forall2 (fun kv name => exists x, R (fst kv) (snd kv) name x) l names /\ firsts names (map fst m).
Proof.
  induction 1 as [|l m key nd name x F (names & F2 & Fi) Rx].
  - exists []. split; constructor.
  - exists (names ++ [name]). split; [|now apply oset_firsts].
    apply Forall2_app; auto. constructor; [|constructor]. exists x. exact Rx.
Qed.

Lemma document_order E a S0 f l : document_for E a S0 -> shape_at (c_heap E) a (SObject f) -> props_of (c_heap E) (o_props f) l ->
  exists b t, get_base (c_heap E) a = Some b /\ In (b_name b, t) (definitions S0)
    /\ map fst (entries (properties t)) = map fst l /\ required_of l (k_required (keywords t)).
Proof.
  intros (b & d & t & G & -> & _ & I & Sh & _) (b' & G' & Sb) L. assert (b' = b) by congruence. subst b'.
  exists b, t. split; auto. split; auto. simpl.
  inversion Sh as [? ? ? ? ? ? ? ? G1 S1 W|? ? ? ? ? ? ? ? G1 S1|? b1 f1 l1 ps pl qs pps req ? ? ? ? G1 S1 M1 M2 N1 N2 F1 F2 St Rq|
    ? ? ? ? ? ? ? ? ? ? G1 S1|? ? ? S1|? ? ? ? ? ? ? ? ? ? ? ? ? ? ? ? ? ? ? ? ? ? ? G1 S1|? ? G1 S1]; subst.
  - assert (b0 = b) by congruence. subst. assert (sh = SObject f) by congruence. subst. inversion W.
  - exfalso. congruence.
  - assert (b1 = b) by congruence. subst. assert (f1 = f) by congruence. subst.
    assert (l = Spec_Schema.entries l1).
    { destruct L as [[L ->]|(m & L & Gm)]; rewrite L in M1; destruct l1; try (destruct M1; fail); auto. simpl in *. congruence. }
    subst l. split; [|exact Rq]. simpl. clear -F1. induction F1 as [|? ? ? ? [Q _] _ IH]; simpl; [reflexivity|]. now rewrite IH, Q.
  - exfalso. congruence.
  - exfalso. destruct S1 as (b2 & G2 & S2). congruence.
  - exfalso. congruence.
  - exfalso. assert (b0 = b) by congruence. subst. destruct S1; congruence.
Qed.
