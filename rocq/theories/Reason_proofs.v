(** Every error that validation reports has a reason (C65). *)
From Coq Require Import ZArith List String Bool Lia.
From Verif Require Import Base Scalars Heap Heap_lemmas Validate Names Pipeline Spec_Validate Spec_Model Spec_Clone
  Spec_Region Spec_Names Spec_Pipeline Clone_proofs Region_proofs Label_proofs Names_proofs Pipeline_proofs
  Scalars_proofs Validate_proofs Check_proofs Spec_Reason.
Import ListNotations.
Open Scope string_scope.
Open Scope list_scope.
Open Scope nat_scope.

(** * One type *)

Lemma rbind_err {A B} (m : res A) (k : A -> res B) : rbind m k = Err -> m = Err \/ exists x, m = Ok x /\ k x = Err.
Proof. destruct m; cbn [rbind]; intros H; try discriminate; eauto. Qed.

Lemma validate_all_err val l : validate_all val l = Err -> exists v, In v l /\ val v = Err.
Proof.
  induction l as [|x l IH]; cbn [validate_all]; [discriminate|]. intros H. apply rbind_err in H.
  destruct H as [H|([] & _ & H)]; [exists x; split; [now left|exact H]|].
  destruct (IH H) as (v & I & E). exists v. split; [now right|exact E].
Qed.

Lemma examples_err val b : validate_examples val b = Err -> exists v, sample b v /\ val v = Err.
Proof.
  unfold validate_examples. intros H. apply rbind_err in H. destruct H as [H|([] & _ & H)].
  - destruct (b_example b) as [v|] eqn:E; [|discriminate]. exists v. split; [left; exact E|exact H].
  - apply rbind_err in H. destruct H as [H|([] & _ & H)].
    + destruct (b_examples b) as [l|] eqn:E; [|discriminate]. apply validate_all_err in H. destruct H as (v & I & H).
      apply in_map_iff in I. destruct I as ([k v'] & E' & I). simpl in E'. subst v'.
      exists v. split; [right; left; exists l, k; auto|exact H].
    + destruct (b_default b) as [v|] eqn:E; [|discriminate]. exists v. split; [right; right; exact E|exact H].
Qed.

Lemma collect_defs_err own l : forall acc, collect_defs own l acc = Err -> exists k f d, In (k, f) l /\ oget (p_name f) own = Some d.
Proof.
  induction l as [|[k f] l IH]; intros acc; cbn [collect_defs]; [discriminate|].
  destruct (oget (p_name f) own) as [d|] eqn:E.
  - intros _. exists k, f, d. split; [now left|exact E].
  - intros H. destruct (IH _ H) as (k' & f' & d & I & D). exists k', f', d. split; [now right|exact D].
Qed.

Lemma facet_defs_err n : forall h own b acc, facet_defs n h own (b_inherits b) acc = Err ->
  exists c f d, ancestor h b c /\ defines_facet h c f /\ oget (p_name f) own = Some d.
Proof.
  induction n as [|n IH]; intros h own b acc; cbn [facet_defs]; [discriminate|].
  destruct (get_slice h (b_inherits b)) as [[|p l]|] eqn:Es; [discriminate| |discriminate].
  destruct (get_base h p) as [pb|] eqn:Ep; [|discriminate].
  destruct (get_props h (b_fdefs pb)) as [m|] eqn:Em; [|discriminate].
  assert (P : parent h b pb) by (exists p, l; auto).
  intros H. apply rbind_err in H. destruct H as [H|(acc' & _ & H)].
  - destruct (collect_defs_err _ _ _ H) as (k & f & d & I & E). exists pb, f, d.
    split; [now apply anc_one|]. split; [exists m, k; auto|exact E].
  - destruct (IH _ _ _ _ H) as (c & f & d & A & F & E). exists c, f, d. split; [eapply anc_more; eauto|auto].
Qed.

Lemma facets_loop_err val given defs : facets_loop val given defs = Err ->
  exists k d, In (k, d) defs /\ ((oget k given = None /\ p_req d = true) \/ exists v, oget k given = Some v /\ val (p_base d) v = Err).
Proof.
  induction defs as [|[k d] defs IH]; cbn [facets_loop]; [discriminate|].
  intros H. apply rbind_err in H. destruct H as [H|([] & _ & H)].
  - exists k, d. split; [now left|]. destruct (oget k given) as [v|]; [eauto|]. destruct (p_req d); [auto|discriminate].
  - destruct (IH H) as (k' & d' & I & X). exists k', d'. split; [now right|exact X].
Qed.

Lemma in_oget {A} k (v : A) m : In (k, v) m -> exists v', oget k m = Some v'.
Proof.
  induction m as [|[k0 v0] m IH]; intros I; [destruct I|]. cbn [oget]. destruct (String.eqb k k0) eqn:E; [eauto|].
  destruct I as [I|I]; [|auto]. injection I as -> _. rewrite String.eqb_refl in E. discriminate.
Qed.

(** The keys of the collected definitions are their names. *)
Definition keyed (m : omap prop) : Prop := NoDup (map fst m) /\ forall k d, In (k, d) m -> p_name d = k.
Lemma oset_In {A} k (v : A) m x y : In (x, y) (oset k v m) -> (x = k /\ y = v) \/ In (x, y) m.
Proof.
  induction m as [|[k0 v0] m IH]; cbn [oset].
  - intros [E|[]]. injection E as -> ->. auto.
  - destruct (String.eqb k k0) eqn:E; intros [I|I].
    + injection I as -> ->. apply String.eqb_eq in E. left. split; [now symmetry|reflexivity].
    + right. now right.
    + right. now left.
    + destruct (IH I) as [H|H]; [auto|right; now right].
Qed.
Lemma oset_nodup {A} k (v : A) m : NoDup (map fst m) -> NoDup (map fst (oset k v m)).
Proof.
  induction m as [|[k0 v0] m IH]; cbn [oset map fst]; intros N.
  - constructor; [intros []|constructor].
  - inversion N as [|x l N1 N2]; subst. destruct (String.eqb k k0) eqn:E; cbn [map fst]; [exact N|].
    constructor; [|auto]. intros I. apply in_map_iff in I. destruct I as ([x y] & E1 & I). simpl in E1. subst x.
    destruct (oset_In _ _ _ _ _ I) as [[-> _]|I']; [rewrite String.eqb_refl in E; discriminate|].
    apply N1. apply in_map_iff. exists (k0, y). auto.
Qed.
Lemma collect_defs_keyed own l : forall acc defs, keyed acc -> collect_defs own l acc = Ok defs -> keyed defs.
Proof.
  induction l as [|[k f] l IH]; intros acc defs K; cbn [collect_defs]; [intros H; injection H as <-; exact K|].
  destruct (oget (p_name f) own); [discriminate|]. apply IH. destruct K as [K1 K2]. split; [now apply oset_nodup|].
  intros x y I. destruct (oset_In _ _ _ _ _ I) as [[-> ->]|I']; auto.
Qed.
Lemma facet_defs_keyed n : forall h own i acc defs, keyed acc -> facet_defs n h own i acc = Ok defs -> keyed defs.
Proof.
  induction n as [|n IH]; intros h own i acc defs K; cbn [facet_defs]; [discriminate|].
  destruct (get_slice h i) as [[|p l]|]; [intros H; injection H as <-; exact K| |discriminate].
  destruct (get_base h p) as [pb|]; [|discriminate]. destruct (get_props h (b_fdefs pb)) as [m|]; [|discriminate].
  intros H. apply rbind_ok in H. destruct H as (acc' & H1 & H2). eapply IH; [|exact H2]. eapply collect_defs_keyed; eauto.
Qed.

Lemma facets_err n m O h x b : facets_keyed h -> get_base h x = Some b ->
  validate_facets n (validate m O h) h b = Err -> bad_facets O h b.
Proof.
  intros HK Eb. unfold validate_facets.
  destruct (get_props h (b_fdefs b)) as [own|] eqn:Eo; [|discriminate].
  destruct (get_facets h (b_facets b)) as [given|] eqn:Eg; [|discriminate].
  assert (HG : forall k v, gives_facet h b k v <-> oget k given = Some v).
  { intros k v. split; [intros (g & M1 & M2); congruence|intros H; exists given; auto]. }
  intros H. apply rbind_err in H. destruct H as [H|(defs & Ed & H)].
  - destruct (facet_defs_err _ _ _ _ _ H) as (c & f & d & A & F & E). apply oget_in in E.
    destruct (HK x b own Eb Eo) as [_ K]. apply (bf_again O h b c f d A F); [exists own, (p_name f); auto|].
    symmetry. exact (K _ _ E).
  - assert (KD : keyed defs) by (eapply facet_defs_keyed; [|exact Ed]; split; [constructor|intros k d []]).
    destruct (facet_defs_ok _ _ _ _ _ _ Ed) as (A1 & A2 & _).
    assert (Src : forall k d, In (k, d) defs -> exists c, ancestor h b c /\ defines_facet h c d /\ p_name d = k).
    { intros k d I. destruct KD as [K1 K2]. pose proof (nodup_keys_in _ _ _ K1 I) as G.
      destruct (A2 k d G) as [X|X]; [exact X|discriminate]. }
    apply rbind_err in H. destruct H as [H|([] & _ & H)].
    + destruct (facets_loop_err _ _ _ H) as (k & d & I & X). destruct (Src k d I) as (c & A & F & E). subst k.
      destruct X as [[X1 X2]|(v & X1 & X2)].
      * apply (bf_missing O h b c d A F X2). intros v G. apply HG in G. congruence.
      * apply (bf_value O h b c d v A F); [now apply HG|]. exists m. exact X2.
    + destruct (forallb _ given) eqn:Fb; [discriminate|]. clear H.
      assert (exists kv, In kv given /\ oget (fst kv) defs = None) as ([k v] & I & N).
      { clear - Fb. induction given as [|kv g IH]; [discriminate|]. simpl in Fb.
        destruct (oget (fst kv) defs) as [d|] eqn:E; simpl in Fb.
        - destruct (IH Fb) as (y & I & N). exists y. split; [now right|exact N].
        - exists kv. split; [now left|exact E]. }
      simpl in N. destruct (in_oget _ _ _ I) as (v' & G). apply (bf_unknown O h b k v'); [now apply HG|].
      intros c d A F E. destruct (A1 c d A F) as (_ & d' & D'). rewrite E in D'. congruence.
Qed.

Lemma commons_err n : forall O h a, facets_keyed h -> commons n O h a = Err ->
  exists d b, part_of h a d /\ get_base h d = Some b /\ (bad_sample O h d b \/ bad_facets O h b).
Proof.
  induction n as [|n IH]; intros O h a HK H; [discriminate|]. cbn [commons] in H.
  destruct (get_base h a) as [b|] eqn:Eb; [|discriminate].
  assert (Desc : forall sh c, b_shape b = Some sh -> (forall hd, sh <> SRec hd) -> child h sh c -> commons n O h c = Err ->
    exists d b, part_of h a d /\ get_base h d = Some b /\ (bad_sample O h d b \/ bad_facets O h b)).
  { intros sh c Es N K E. destruct (IH O h c HK E) as (d & b' & P & X). exists d, b'. split; [|exact X].
    eapply po_child; eauto. exists b. auto. }
  apply rbind_err in H. destruct H as [H|([] & _ & H)].
  { exists a, b. split; [constructor|]. split; [exact Eb|]. right. eapply facets_err; eauto. }
  apply rbind_err in H. destruct H as [H|([] & _ & H)].
  { exists a, b. split; [constructor|]. split; [exact Eb|]. left. destruct (examples_err _ _ H) as (v & S & V).
    exists v. split; [exact S|]. exists n. exact V. }
  apply rbind_err in H. destruct H as [H|([] & _ & H)].
  - destruct (b_shape b) as [sh|] eqn:Es; [|discriminate]. destruct sh; try discriminate.
    + destruct (a_items f) as [i|] eqn:Ei; [|discriminate]. eapply (Desc _ i eq_refl); [discriminate|now constructor|exact H].
    + destruct (opt_props h (o_props f)) as [l1|] eqn:E1; [|discriminate].
      destruct (opt_props h (o_pprops f)) as [l2|] eqn:E2; [|discriminate].
      apply rbind_err in H. destruct H as [H|([] & _ & H)]; apply check_all_err in H; destruct H as (c & I & E);
        apply in_bases in I; destruct I as (k & p & I & <-);
        [eapply (Desc _ _ eq_refl); [discriminate| |exact E]; eapply ch_prop; [apply opt_props_of; exact E1|exact I]
        |eapply (Desc _ _ eq_refl); [discriminate| |exact E]; eapply ch_pprop; [apply opt_props_of; exact E2|exact I]].
    + destruct (get_slice h anyof) as [l|] eqn:El; [|discriminate].
      apply check_all_err in H. destruct H as (c & I & E).
      eapply (Desc _ c eq_refl); [discriminate| |exact E]. econstructor; eauto.
  - destruct (get_props h (b_fdefs b)) as [l|] eqn:El; [|discriminate].
    apply check_all_err in H. destruct H as (c & I & E). apply in_bases in I. destruct I as (k & p & I & <-).
    destruct (IH O h (p_base p) HK E) as (d & b' & P & X). exists d, b'. split; [|exact X].
    eapply po_facet; eauto.
Qed.

(** * The whole model *)

Section Whole.
Variable n : nat.
Variable O : oracle.
Variable h0 : list cell.
Hypothesis W : wf_heap h0.
Hypothesis U : ids_unique h0.
Hypothesis NR : no_rec h0.

Lemma bind_err {A B} (m : M A) (k : A -> M B) s : fst (bind m k s) = Err ->
  fst (m s) = Err \/ exists x s1, m s = (Ok x, s1) /\ fst (k x s1) = Err.
Proof. unfold bind. destruct (m s) as [[x| | |] s1]; simpl; intros H; try discriminate; eauto. Qed.

Lemma rd_err {A} (g : list cell -> addr -> option A) a s : fst (rd g a s) <> Err.
Proof. unfold rd. destruct (g (heap s) a); simpl; discriminate. Qed.

Lemma old_here a b s : get_base h0 a = Some b -> grown h0 s -> get_base (heap s) a = Some b.
Proof.
  intros E (x & Gx). rewrite get_base_nth in *. rewrite Gx. rewrite nth_error_app1; eauto using nth_error_lt.
Qed.

Lemma val_unwrap_err a c s : old h0 a -> grown h0 s -> fst (val_unwrap n a c s) = Err ->
  exists b, get_base h0 a = Some b /\ b_unwrapped b = false /\ copy_fails n a s.
Proof.
  intros (b & Eb) G H. pose proof (old_here _ _ _ Eb G) as Es. exists b. split; [exact Eb|].
  unfold val_unwrap in H. rewrite (bind_ok _ _ _ _ _ (rd_some _ _ _ _ Es)) in H.
  destruct (b_unwrapped b); [discriminate|]. split; [reflexivity|].
  apply bind_err in H. destruct H as [H|(a1 & s1 & E1 & H)]; [left; exact H|]. right. exists a1, s1. split; [exact E1|].
  apply bind_err in H. destruct H as [H|(us & s2 & E2 & H)]; [left; exact H|]. right. exists us, s2. split; [exact E2|].
  apply bind_err in H. destruct H as [H|(o & s3 & E3 & H)]; [exact H|].
  apply bind_err in H. destruct H as [H|(b' & s4 & E4 & H)]; [exfalso; exact (rd_err _ _ _ H)|discriminate].
Qed.

Lemma val_unwrap_ok a c s us c' s' b : get_base h0 a = Some b -> grown h0 s -> val_unwrap n a c s = (Ok (us, c'), s') ->
  (b_unwrapped b = true /\ us = a /\ s' = s /\ c' = c)
  \/ (b_unwrapped b = false /\ unwrapped_copy n a s us s' /\ exists k, c' = (k, us) :: c).
Proof.
  intros Eb G H. pose proof (old_here _ _ _ Eb G) as Es.
  unfold val_unwrap in H. rewrite (bind_ok _ _ _ _ _ (rd_some _ _ _ _ Es)) in H. destruct (b_unwrapped b).
  - injection H as <- <- <-. auto.
  - right. split; [reflexivity|]. apply bind_inv in H. destruct H as (a1 & t1 & E1 & H). apply bind_inv in H.
    destruct H as (u & t2 & E2 & H). apply bind_inv in H. destruct H as (o & t3 & E3 & H). apply bind_inv in H.
    destruct H as (b' & t4 & E4 & H). apply rd_ok in E4. destruct E4 as [-> _]. injection H as <- <- <-.
    split; [exists a1, t1, t2, o; auto|]. eauto.
Qed.

Lemma validate_type_bad a c s c' s' : old h0 a -> grown h0 s -> validate_type n O a c s = (Ok (false, c'), s') -> bad_type n O h0 a.
Proof.
  intros Oa G H. unfold validate_type in H. apply bind_inv in H. destruct H as (r & s1 & E & H).
  destruct (try_inv _ _ _ _ E) as [([us c1] & -> & E')|[-> E']].
  - apply bind_inv in H. destruct H as (k & s2 & E2 & H). injection H as Hk <- <-.
    destruct (try_inv _ _ _ _ E2) as [([] & -> & E3)|[-> E3]]; [discriminate Hk|].
    destruct Oa as (b & Eb). exists b, s. split; [exact Eb|]. split; [exact G|]. right. exists us, s1.
    split; [destruct (val_unwrap_ok _ _ _ _ _ _ _ Eb G E') as [(A & B & C & _)|(A & B & _)]; auto|].
    unfold check_type in E3. destruct (check n O (heap s1) us) as [[]| | |] eqn:Ec; injection E3 as E3; try discriminate E3; auto.
  - assert (F : fst (val_unwrap n a c s) = Err) by now rewrite E'.
    destruct (val_unwrap_err _ _ _ Oa G F) as (b & Eb & B & C). exists b, s. auto.
Qed.

Lemma validate_types_bad l : forall c s c' s', (forall k a, In (k, a) l -> old h0 a) -> grown h0 s ->
  validate_types n O l c s = (Ok (false, c'), s') -> exists k a, In (k, a) l /\ bad_type n O h0 a.
Proof.
  induction l as [|[k0 a0] l IH]; intros c s c' s' D G H; [discriminate H|]. simpl in H.
  apply bind_inv in H. destruct H as ([ok1 c1] & s1 & E1 & H). apply bind_inv in H. destruct H as ([ok2 c2] & s2 & E2 & H). simpl in *.
  injection H as Hk <- <-.
  assert (O0 : old h0 a0) by (eapply D; left; reflexivity).
  destruct (adds_run h0 _ _ _ _ (adds_validate_type h0 W U NR n O a0 c O0) G E1) as (G1 & _).
  destruct ok1; [|exists k0, a0; split; [now left|exact (validate_type_bad _ _ _ _ _ O0 G E1)]].
  simpl in Hk. subst ok2.
  assert (D' : forall k a, In (k, a) l -> old h0 a) by (intros; eapply D; right; eauto).
  destruct (IH _ _ _ _ D' G1 E2) as (k & a & I & B). exists k, a. split; [now right|exact B].
Qed.

Variable R : raml.
Hypothesis D : declared_ok h0 R.

Lemma validate_fragment_bad loc f c s c' s' : oget loc (r_frags R) = Some f -> grown h0 s ->
  validate_fragment n O (r_libs R) f c s = (Ok (false, c'), s') -> exists a, declared_in R loc a /\ bad_type n O h0 a.
Proof.
  intros Ef G H. destruct f as [l|uses [a|]|]; simpl in H; try discriminate H.
  - destruct (nth_error (r_libs R) l) as [lib|] eqn:En; [|discriminate H]. unfold validate_library in H.
    apply bind_inv in H. destruct H as ([oka ca] & sa & Ea & H). apply bind_inv in H. destruct H as ([okb cb] & sb & Eb & H).
    simpl in *. injection H as Hk _ <-. pose proof (nth_error_In _ _ En) as In_.
    assert (DA : forall k' y, In (k', y) (l_annots lib) -> old h0 y) by (intros; apply D; eapply dc_annot; eauto).
    assert (DT : forall k' y, In (k', y) (l_types lib) -> old h0 y) by (intros; apply D; eapply dc_type; eauto).
    destruct (adds_run h0 _ _ _ _ (adds_validate_types h0 W U NR n O _ c DA) G Ea) as (Ga & _).
    destruct oka.
    + simpl in Hk. subst okb. destruct (validate_types_bad _ _ _ _ _ DT Ga Eb) as (k & a & I & B).
      exists a. split; [eapply di_type; eauto|exact B].
    + destruct (validate_types_bad _ _ _ _ _ DA G Ea) as (k & a & I & B).
      exists a. split; [eapply di_annot; eauto|exact B].
  - exists a. split; [eapply di_data; eauto|]. refine (validate_type_bad _ _ _ _ _ _ G H).
    apply D. eapply dc_data. eapply oget_In. exact Ef.
Qed.

Lemma validate_fragments_bad order : forall c s c' s', grown h0 s -> validate_fragments n O R order c s = (Ok (false, c'), s') ->
  exists loc a, In loc order /\ declared_in R loc a /\ bad_type n O h0 a.
Proof.
  induction order as [|k order IH]; intros c s c' s' G H; [discriminate H|]. simpl in H.
  destruct (oget k (r_frags R)) as [f|] eqn:Ef.
  - apply bind_inv in H. destruct H as ([ok1 c1] & s1 & E1 & H). apply bind_inv in H. destruct H as ([ok2 c2] & s2 & E2 & H). simpl in *.
    injection H as Hk <- <-. pose proof (oget_In _ _ _ Ef) as If.
    destruct (adds_run h0 _ _ _ _ (adds_validate_fragment h0 W U NR R D n O k f c If) G E1) as (G1 & _).
    destruct ok1.
    + simpl in Hk. subst ok2. destruct (IH _ _ _ _ G1 E2) as (loc & a & I & J). exists loc, a. split; [now right|exact J].
    + destruct (validate_fragment_bad _ _ _ _ _ _ Ef G E1) as (a & J). exists k, a. split; [now left|exact J].
  - destruct (IH _ _ _ _ G H) as (loc & a & I & J). exists loc, a. split; [now right|exact J].
Qed.

(** Nothing ends with an error before the verdict is formed. *)
Lemma try_no_err {A} (m : M A) s : fst (try m s) <> Err.
Proof. unfold try. destruct (m s) as [[x| | |] s1]; simpl; discriminate. Qed.
Lemma bind_no_err {A B} (m : M A) (k : A -> M B) : (forall s, fst (m s) <> Err) -> (forall x s, fst (k x s) <> Err) ->
  forall s, fst (bind m k s) <> Err.
Proof.
  intros Hm Hk s E. apply bind_err in E. destruct E as [E|(x & s1 & _ & E)]; [exact (Hm _ E)|exact (Hk _ _ E)].
Qed.
Lemma ret_no_err {A} (x : A) s : fst (ret x s) <> Err.
Proof. discriminate. Qed.
Lemma validate_type_no_err a c s : fst (validate_type n O a c s) <> Err.
Proof.
  revert s. unfold validate_type. apply bind_no_err; [intros; apply try_no_err|].
  intros [[us c1]|]; [|intros; simpl; discriminate]. apply bind_no_err; [intros; apply try_no_err|]. intros; simpl; discriminate.
Qed.
Lemma validate_types_no_err l : forall c s, fst (validate_types n O l c s) <> Err.
Proof.
  induction l as [|[k a] l IH]; intros c; simpl; [intros; simpl; discriminate|].
  apply bind_no_err; [apply validate_type_no_err|]. intros x. apply bind_no_err; [apply IH|]. intros; simpl; discriminate.
Qed.
Lemma validate_fragments_no_err order : forall c s, fst (validate_fragments n O R order c s) <> Err.
Proof.
  induction order as [|k order IH]; intros c; simpl; [intros; simpl; discriminate|].
  destruct (oget k (r_frags R)) as [f|]; [|apply IH].
  apply bind_no_err; [|intros x; apply bind_no_err; [apply IH|intros; simpl; discriminate]].
  destruct f as [l|uses [a|]|]; simpl; try (intros s0; simpl; discriminate).
  - destruct (nth_error (r_libs R) l); [|intros; simpl; discriminate]. unfold validate_library.
    apply bind_no_err; [apply validate_types_no_err|]. intros x. apply bind_no_err; [apply validate_types_no_err|]. intros; simpl; discriminate.
  - apply validate_type_no_err.
Qed.
Lemma validate_exts_no_err l c : forall s, fst (validate_exts n O l c s) <> Err.
Proof.
  induction l as [|e l IH]; simpl; [intros; simpl; discriminate|].
  apply bind_no_err; [intros; apply try_no_err|]. intros x. apply bind_no_err; [apply IH|]. intros; simpl; discriminate.
Qed.

(** ** The cache has an entry for every type visited without an error *)
Definition kept (c : cache) (k : Z) : Prop := exists us, cm_get k c = Some us.
Definition grows_to (c c' : cache) : Prop := forall k, kept c k -> kept c' k.

Lemma val_unwrap_kept a b c s us c' s' : get_base h0 a = Some b -> grown h0 s -> val_unwrap n a c s = (Ok (us, c'), s') ->
  grows_to c c' /\ (b_unwrapped b = false -> kept c' (b_id b)).
Proof.
  intros Eb G H. destruct (val_unwrap_ok _ _ _ _ _ _ _ Eb G H) as [(A & _ & _ & ->)|(A & B & k & ->)].
  - split; [intros k K; exact K|congruence].
  - split.
    + intros x (u & K). unfold kept. simpl. destruct (Z.eqb x k); eauto.
    + intros _. unfold kept. simpl.
      assert (Oa : old h0 a) by (exists b; exact Eb).
      assert (k = b_id b).
      { pose proof (old_here _ _ _ Eb G) as Es. unfold val_unwrap in H.
        rewrite (bind_ok _ _ _ _ _ (rd_some _ _ _ _ Es)) in H. rewrite A in H.
        apply bind_inv in H. destruct H as (a1 & s1 & E1 & H). apply bind_inv in H. destruct H as (u & s2 & E2 & H).
        apply bind_inv in H. destruct H as (o & s3 & E3 & H). apply bind_inv in H. destruct H as (b' & s4 & E4 & H).
        apply rd_ok in E4. destruct E4 as [-> E4]. injection H as _ <- _ _.
        destruct (clone_isomorphic_in _ _ _ _ _ _ W U G Oa E1) as (ph & P & _ & _ & PQ).
        destruct (PQ _ _ P) as (_ & bx & by_ & X1 & X2 & X3 & _). replace bx with b in * by congruence.
        assert (L : labels s1 s3).
        { eapply labels_trans; [eapply labels_run; [|exact E2]; apply unwrap_lab|eapply labels_run; [|exact E3]; apply mark_lab]. }
        destruct (labels_base _ _ _ _ L X2) as (bz & Z1 & Z2 & _). destruct X3 as (X3 & _). congruence. }
      subst k. rewrite Z.eqb_refl. eauto.
Qed.

Lemma validate_type_kept a b c s ok c' s' : get_base h0 a = Some b -> grown h0 s -> validate_type n O a c s = (Ok (ok, c'), s') ->
  grows_to c c' /\ (ok = true -> b_unwrapped b = false -> kept c' (b_id b)).
Proof.
  intros Eb G H. unfold validate_type in H. apply bind_inv in H. destruct H as (r & s1 & E & H).
  destruct (try_inv _ _ _ _ E) as [([us c1] & -> & E')|[-> E']].
  - apply bind_inv in H. destruct H as (k & s2 & E2 & H). injection H as _ <- <-.
    destruct (val_unwrap_kept _ _ _ _ _ _ _ Eb G E') as [K1 K2]. auto.
  - injection H as <- <- <-. split; [intros k K; exact K|discriminate].
Qed.

Lemma validate_types_kept l : forall c s c' s' ok, (forall k a, In (k, a) l -> old h0 a) -> grown h0 s ->
  validate_types n O l c s = (Ok (ok, c'), s') ->
  grows_to c c' /\ (ok = true -> forall k a b, In (k, a) l -> get_base h0 a = Some b -> b_unwrapped b = false -> kept c' (b_id b)).
Proof.
  induction l as [|[k0 a0] l IH]; intros c s c' s' ok D' G H.
  { injection H as <- <- <-. split; [intros k K; exact K|intros _ k a b []]. }
  simpl in H.
  apply bind_inv in H. destruct H as ([ok1 c1] & s1 & E1 & H). apply bind_inv in H. destruct H as ([ok2 c2] & s2 & E2 & H). simpl in *.
  injection H as Hk <- <-.
  assert (O0 : old h0 a0) by (eapply D'; left; reflexivity).
  destruct (adds_run h0 _ _ _ _ (adds_validate_type h0 W U NR n O a0 c O0) G E1) as (G1 & _).
  destruct O0 as (b0 & Eb0). destruct (validate_type_kept _ _ _ _ _ _ _ Eb0 G E1) as [A1 A2].
  assert (D2 : forall k a, In (k, a) l -> old h0 a) by (intros; eapply D'; right; eauto).
  destruct (IH _ _ _ _ _ D2 G1 E2) as [B1 B2]. split; [intros k K; auto|].
  intros -> k a b I Eb Q. apply andb_prop in Hk. destruct Hk as [-> ->].
  destruct I as [[= <- <-]|I]; [|eapply B2; eauto]. replace b0 with b in * by congruence. auto.
Qed.

Lemma validate_fragment_kept loc f c s c' s' ok : oget loc (r_frags R) = Some f -> grown h0 s ->
  validate_fragment n O (r_libs R) f c s = (Ok (ok, c'), s') ->
  grows_to c c' /\ (ok = true -> forall a b, declared_in R loc a -> get_base h0 a = Some b -> b_unwrapped b = false -> kept c' (b_id b)).
Proof.
  intros Ef G H. destruct f as [l|uses [a|]|]; simpl in H; try discriminate H.
  - destruct (nth_error (r_libs R) l) as [lib|] eqn:En; [|discriminate H]. unfold validate_library in H.
    apply bind_inv in H. destruct H as ([oka ca] & sa & Ea & H). apply bind_inv in H. destruct H as ([okb cb] & sb & Eb & H).
    simpl in *. injection H as Hk <- <-. pose proof (nth_error_In _ _ En) as In_.
    assert (DA : forall k' y, In (k', y) (l_annots lib) -> old h0 y) by (intros; apply D; eapply dc_annot; eauto).
    assert (DT : forall k' y, In (k', y) (l_types lib) -> old h0 y) by (intros; apply D; eapply dc_type; eauto).
    destruct (adds_run h0 _ _ _ _ (adds_validate_types h0 W U NR n O _ c DA) G Ea) as (Ga & _).
    destruct (validate_types_kept _ _ _ _ _ _ DA G Ea) as [A1 A2].
    destruct (validate_types_kept _ _ _ _ _ _ DT Ga Eb) as [B1 B2].
    split; [intros k K; auto|]. intros -> a b J Eb' Q. apply andb_prop in Hk. destruct Hk as [-> ->].
    destruct J as [l' lib' k' El En' Hx|l' lib' k' El En' Hx|uses El]; rewrite Ef in El; try discriminate El;
      injection El as <-; rewrite En in En'; injection En' as <-.
    + exact (B2 eq_refl _ _ _ Hx Eb' Q).
    + apply B1. exact (A2 eq_refl _ _ _ Hx Eb' Q).
  - assert (Oa : old h0 a) by (apply D; eapply dc_data; eapply oget_In; exact Ef). destruct Oa as (b0 & Eb0).
    destruct (validate_type_kept _ _ _ _ _ _ _ Eb0 G H) as [A1 A2]. split; [exact A1|].
    intros Hk x b J Eb Q. destruct J as [l lib k' El|l lib k' El|uses' El]; rewrite Ef in El; try discriminate El.
    injection El as <- <-. replace b0 with b in * by congruence. auto.
  - injection H as <- <- <-. split; [intros k K; exact K|].
    intros _ x b J. destruct J as [l lib k' El|l lib k' El|uses' El]; rewrite Ef in El; discriminate El.
Qed.

Lemma validate_fragments_kept order : forall c s c' s' ok, grown h0 s -> validate_fragments n O R order c s = (Ok (ok, c'), s') ->
  grows_to c c' /\ (ok = true -> forall loc a b, In loc order -> declared_in R loc a -> get_base h0 a = Some b ->
                      b_unwrapped b = false -> kept c' (b_id b)).
Proof.
  induction order as [|k order IH]; intros c s c' s' ok G H.
  { injection H as <- <- <-. split; [intros k K; exact K|intros _ loc a b []]. }
  simpl in H. destruct (oget k (r_frags R)) as [f|] eqn:Ef.
  - apply bind_inv in H. destruct H as ([ok1 c1] & s1 & E1 & H). apply bind_inv in H. destruct H as ([ok2 c2] & s2 & E2 & H). simpl in *.
    injection H as Hk <- <-. pose proof (oget_In _ _ _ Ef) as If.
    destruct (adds_run h0 _ _ _ _ (adds_validate_fragment h0 W U NR R D n O k f c If) G E1) as (G1 & _).
    destruct (validate_fragment_kept _ _ _ _ _ _ _ Ef G E1) as [A1 A2]. destruct (IH _ _ _ _ _ G1 E2) as [B1 B2].
    split; [intros x K; auto|]. intros -> loc a b I J Eb Q. apply andb_prop in Hk. destruct Hk as [-> ->].
    destruct I as [<-|I]; [|eapply B2; eauto]. apply B1. eapply A2; eauto.
  - destruct (IH _ _ _ _ _ G H) as [B1 B2]. split; [exact B1|]. intros -> loc a b [<-|I] J Eb Q; [|eapply B2; eauto].
    destruct J as [l lib k' El|l lib k' El|uses' El]; rewrite Ef in El; discriminate El.
Qed.
End Whole.

Lemma validate_exts_bad n O l c s s' : validate_exts n O l c s = (Ok false, s') ->
  exists e, In e l /\ fst (validate_ext n O e c s) = Err.
Proof.
  revert s s'. induction l as [|e l IH]; intros s s' H; [discriminate H|]. simpl in H.
  apply bind_inv in H. destruct H as (k & s1 & E & H). apply bind_inv in H. destruct H as (ok & s2 & E2 & H).
  pose proof (validate_ext_same n O e c s) as S1. unfold after in S1.
  destruct (try_inv _ _ _ _ E) as [([] & -> & E')|[-> E']]; rewrite E' in S1; simpl in S1; subst s1.
  - injection H as -> <-. destruct (IH _ _ E2) as (x & I & X). exists x. split; [now right|exact X].
  - exists e. split; [now left|]. now rewrite E'.
Qed.

Theorem validate_shapes_reason n O order R s s' :
  wf_heap (heap s) -> ids_unique (heap s) -> no_rec (heap s) -> declared_ok (heap s) R ->
  (forall e a, In e (r_exts R) -> e_def e = Some a -> exists b, get_base (heap s) a = Some b) ->
  validate_shapes n O order R s = (Err, s') ->
  (exists loc a, In loc order /\ declared_in R loc a /\ bad_type n O (heap s) a)
  \/ exists e, In e (r_exts R) /\ bad_ext n O order R (heap s) (heap s') e.
Proof.
  intros W U NR D V H. unfold validate_shapes in H.
  assert (G : grown (heap s) s) by (exists []; now rewrite app_nil_r).
  destruct (validate_fragments n O R order [] s) as [r1 s1] eqn:E1.
  pose proof (validate_fragments_no_err n O R order [] s) as N1. rewrite E1 in N1.
  unfold bind at 1 in H. rewrite E1 in H. destruct r1 as [[ok c]| | |]; try discriminate H; [|destruct N1; reflexivity]. clear N1.
  destruct (validate_exts n O (r_exts R) c s1) as [r2 s2] eqn:E2. simpl snd in H.
  pose proof (validate_exts_no_err n O (r_exts R) c s1) as N2. rewrite E2 in N2.
  unfold bind at 1 in H. rewrite E2 in H. destruct r2 as [ok2| | |]; try discriminate H; [|destruct N2; reflexivity]. clear N2.
  pose proof (validate_exts_same n O (r_exts R) c s1) as Q. unfold after in Q. rewrite E2 in Q. simpl in Q. subst s2.
  simpl fst in H. destruct ok.
  2:{ left. exact (validate_fragments_bad n O (heap s) W U NR R D order _ _ _ _ G E1). }
  destruct ok2; [discriminate H|]. right. simpl in H. injection H as <-.
  destruct (validate_exts_bad _ _ _ _ _ _ E2) as (e & I & X). exists e. split; [exact I|].
  destruct (fills_fragments n O (heap s) W U NR R D order) as [A F].
  pose proof (F [] s true c s1 G (fun k us (I0 : In (k, us) []) => match I0 with end) E1) as C.
  destruct (adds_run (heap s) _ _ _ _ (A []) G E1) as (G1 & Y).
  unfold validate_ext in X. destruct (e_def e) as [db|] eqn:Ed; [|discriminate X].
  destruct (V e db I Ed) as (b & Eb). pose proof (old_here (heap s) db b s1 Eb G1) as Eb1.
  exists db, b. split; [exact Ed|]. split; [exact Eb|].
  rewrite (bind_ok _ _ _ _ _ (rd_some _ _ _ _ Eb1)) in X.
  destruct (b_unwrapped b) eqn:Q.
  - left. split; [reflexivity|exact X].
  - right. destruct (cm_get (b_id b) c) as [us|] eqn:Cm.
    + right. split; [reflexivity|].
      destruct (C _ _ (cm_get_In _ _ _ Cm)) as (t & bt & si & sj & T1 & T2 & T3 & T4 & T5 & T6). simpl in *.
      assert (t = db) by (eapply U; eauto). subst t. exists us, si, sj.
      split; [exact T4|]. split; [exact T5|]. split; [exact T6|exact X].
    + left. split; [reflexivity|]. intros loc Il J.
      destruct (validate_fragments_kept n O (heap s) W U NR R D order _ _ _ _ _ G E1) as [_ K].
      destruct (K eq_refl loc db b Il J Eb Q) as (us & K'). congruence.
Qed.
