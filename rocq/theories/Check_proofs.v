(** Lemmas about Check, examples, defaults and custom facets. *)
From Coq Require Import ZArith List String Bool Lia.
From Coq Require Import Floats.SpecFloat.
From Verif Require Import Base Scalars Spec_Scalars Scalars_proofs Heap Validate Spec_Validate
  Validate_proofs.
Import ListNotations.
Open Scope string_scope.
Open Scope Z_scope.

(** Discriminator values are well-formed Go values. *)
Definition discvals_wf (h : list cell) : Prop :=
  forall a f v, shape_at h a (SObject f) -> o_discval f = Some v -> value_wf v.

Lemma check_all_ok rec l : check_all rec l = Ok tt <-> forall a, In a l -> rec a = Ok tt.
Proof.
  induction l as [|x l IH]; cbn [check_all].
  - split; [intros _ a []|reflexivity].
  - rewrite rbind_ok. setoid_rewrite IH. split.
    + intros ([] & A & B) a [<-|K]; auto.
    + intros H. exists tt. split; [apply H; now left|]. intros a K. apply H. now right.
Qed.

Lemma check_all_err rec l : check_all rec l = Err -> exists a, In a l /\ rec a = Err.
Proof.
  induction l as [|x l IH]; cbn [check_all]; [discriminate|].
  destruct (rec x) as [[]| | |] eqn:E; cbn [rbind]; try discriminate.
  - intros H. destruct (IH H) as (a & A & B). exists a. split; [now right|exact B].
  - intros _. exists x. split; [now left|exact E].
Qed.

Lemma in_bases ps a : In a (bases ps) <-> exists k p, In (k, p) ps /\ p_base p = a.
Proof.
  unfold bases. rewrite in_map_iff. split.
  - intros ([k p] & A & B). eauto.
  - intros (k & p & A & B). exists (k, p). auto.
Qed.

Lemma is_scalar_iff sh : is_scalar sh = true <-> scalar_shape sh.
Proof.
  split; [|intros H; inversion H; reflexivity].
  destruct sh; simpl; try discriminate; intros _; constructor.
Qed.

Lemma crossed_bounds lo hi : crossed Z.ltb lo hi = false <-> bounds_ok lo hi.
Proof. apply crossed_Z. Qed.

Lemma disc_ok val h f ps : check_discriminator val h f ps = Ok tt ->
  forall d, o_disc f = Some d ->
    exists p sh, oget d ps = Some p /\ shape_at h (p_base p) sh /\ scalar_shape sh /\
      forall v, o_discval f = Some v -> val (p_base p) v = Ok tt.
Proof.
  unfold check_discriminator. intros H d Hd. rewrite Hd in H.
  destruct (oget d ps) as [p|] eqn:E; [|discriminate].
  destruct (get_base h (p_base p)) as [b|] eqn:Eb; [|discriminate].
  destruct (b_shape b) as [sh|] eqn:Es; [|discriminate].
  apply if_err in H. destruct H as [H1 H2]. apply negb_false_iff, is_scalar_iff in H1.
  exists p, sh. split; [reflexivity|]. split; [exists b; auto|]. split; [exact H1|].
  intros v Hv. rewrite Hv in H2. exact H2.
Qed.

Lemma disc_err val h f ps : check_discriminator val h f ps = Err ->
  ~ (forall d, o_disc f = Some d ->
    exists p sh, oget d ps = Some p /\ shape_at h (p_base p) sh /\ scalar_shape sh /\
      forall v, o_discval f = Some v -> val (p_base p) v <> Err).
Proof.
  unfold check_discriminator. intros H K.
  destruct (o_disc f) as [d|]; [|discriminate].
  destruct (K d eq_refl) as (p & sh & A & (b & B1 & B2) & C & D).
  rewrite A, B1, B2 in H. apply is_scalar_iff in C. rewrite C in H. simpl in H.
  destruct (o_discval f) as [v|]; [|discriminate]. exact (D v eq_refl H).
Qed.

(** Local consistency and descent of [check]. *)
Lemma check_local n O h a sh :
  oracle_wf O -> discvals_wf h -> shape_at h a sh -> check (S n) O h a = Ok tt ->
  consistent O h sh /\ ((forall hd, sh <> SRec hd) -> forall c, child h sh c -> check n O h c = Ok tt).
Proof.
  intros HO HD Hsh H. pose proof Hsh as (b & Eb & Es). cbn [check] in H. rewrite Eb, Es in H.
  destruct sh; cbn [consistent]; try (split; [exact I|intros _ c K; inversion K; fail]).
  - split; [now apply int_check_iff|intros _ c K; inversion K].
  - split; [now apply num_check_iff|intros _ c K; inversion K].
  - split; [now apply str_check_iff|intros _ c K; inversion K].
  - split; [now apply file_check_iff|intros _ c K; inversion K].
  - split; [now apply bool_check_iff|intros _ c K; inversion K].
  - apply if_err in H. destruct H as [H1 H2]. split; [now apply crossed_bounds|].
    intros _ c K. inversion K as [f0 i E| | | |]; subst. rewrite E in H2. exact H2.
  - unfold object_check in H. apply if_err in H. destruct H as [H1 H2].
    apply rbind_ok in H2. destruct H2 as ([] & H2 & H3).
    assert (Q : (o_pprops f <> None -> o_addl f <> Some false) /\
                (forall ps k p, props_of h (o_pprops f) ps -> In (k, p) ps -> check n O h (p_base p) = Ok tt)).
    { destruct (o_pprops f) as [m|].
      - assert (R : o_addl f <> Some false) by (destruct (o_addl f) as [[]|]; try discriminate).
        split; [auto|]. assert (H2' : match get_props h m with None => Panic | Some l => check_all (check n O h) (bases l) end = Ok tt).
        { destruct (o_addl f) as [[]|]; auto. discriminate. }
        intros ps k p Hp Hin. destruct Hp as [[? _]|(m' & E1 & E2)]; [discriminate|].
        injection E1 as <-. rewrite E2 in H2'. rewrite check_all_ok in H2'. apply H2'.
        apply in_bases. eauto.
      - split; [congruence|]. intros ps k p [[_ ->]|(m & E & _)] K; [destruct K|discriminate]. }
    destruct Q as [Q1 Q2].
    assert (R : (forall ps k p, props_of h (o_props f) ps -> In (k, p) ps -> check n O h (p_base p) = Ok tt) /\
                (forall d, o_disc f = Some d ->
                  exists ps p sh, props_of h (o_props f) ps /\ oget d ps = Some p
                    /\ shape_at h (p_base p) sh /\ scalar_shape sh
                    /\ forall v, o_discval f = Some v -> valid O h (p_base p) v)).
    { destruct (o_props f) as [m|].
      - destruct (get_props h m) as [l|] eqn:El; [|discriminate].
        apply rbind_ok in H3. destruct H3 as ([] & H3 & H4). split.
        + intros ps k p [[? _]|(m' & E1 & E2)] Hin; [discriminate|].
          injection E1 as <-. assert (ps = l) by congruence. subst ps.
          rewrite check_all_ok in H3. apply H3. apply in_bases. eauto.
        + intros d Hd. destruct (disc_ok _ _ _ _ H4 d Hd) as (p & sh & A & B & C & D).
          exists l, p, sh. split; [right; exists m; auto|]. repeat (split; [assumption|]).
          intros v Hv. eapply validate_sound; eauto.
      - split.
        + intros ps k p [[_ ->]|(m & E & _)] K; [destruct K|discriminate].
        + intros d Hd. rewrite Hd in H3. discriminate. }
    destruct R as [R1 R2]. split.
    + split; [now apply crossed_bounds|]. split; assumption.
    + intros _ c K. inversion K; subst; eauto.
  - destruct (get_slice h anyof) as [l|] eqn:El; [|discriminate].
    split; [exact I|]. intros _ c K. inversion K as [| | |sl e0 l' m E1 E2 E3 E4|]; subst.
    assert (l' = l) by congruence. subst l'. rewrite check_all_ok in H. auto.
  - discriminate.
  - split; [exact I|]. intros N. exfalso. eapply N. reflexivity.
Qed.

Lemma check_ok n O h a d : 
  oracle_wf O -> discvals_wf h -> below_ h a d -> check n O h a = Ok tt ->
  forall sh, shape_at h d sh -> consistent O h sh.
Proof.
  intros HO HD B. revert n. induction B as [a|a sh0 c d Hsh0 N K B IH]; intros n H sh Hsh.
  - destruct n as [|n]; [discriminate|]. eapply check_local; eauto.
  - destruct n as [|n]; [discriminate|].
    destruct (check_local n O h a sh0 HO HD Hsh0 H) as [_ C]. eapply IH; eauto.
Qed.

Lemma check_err n : forall O h a,
  oracle_wf O -> hash_injective O -> discvals_wf h -> check n O h a = Err ->
  exists d sh, below_ h a d /\ shape_at h d sh /\ ~ consistent O h sh.
Proof.
  induction n as [|n IH]; intros O h a HO HI HD H; [discriminate|].
  cbn [check] in H.
  destruct (get_base h a) as [b|] eqn:Eb; [|discriminate].
  destruct (b_shape b) as [sh|] eqn:Es; [|discriminate].
  assert (Hsh : shape_at h a sh) by (exists b; auto).
  assert (Here : ~ consistent O h sh -> exists d sh, below_ h a d /\ shape_at h d sh /\ ~ consistent O h sh).
  { intros K. exists a, sh. split; [constructor|]. auto. }
  assert (Desc : forall c, (forall hd, sh <> SRec hd) -> child h sh c -> check n O h c = Err ->
    exists d sh, below_ h a d /\ shape_at h d sh /\ ~ consistent O h sh).
  { intros c N K E. destruct (IH O h c HO HI HD E) as (d & s & A & B & C).
    exists d, s. split; [eapply bl_step; eauto|]. auto. }
  destruct sh; try discriminate.
  - apply Here. cbn [consistent]. rewrite <- int_check_iff. congruence.
  - apply Here. cbn [consistent]. rewrite <- num_check_iff. congruence.
  - apply Here. cbn [consistent]. rewrite <- str_check_iff. congruence.
  - apply Here. cbn [consistent]. rewrite <- file_check_iff. congruence.
  - apply Here. cbn [consistent]. rewrite <- bool_check_iff. congruence.
  - destruct (crossed Z.ltb (a_min f) (a_max f)) eqn:C.
    + apply Here. cbn [consistent]. rewrite <- crossed_bounds. congruence.
    + destruct (a_items f) as [i|] eqn:Ei; [|discriminate].
      apply (Desc i); [discriminate|now constructor|exact H].
  - unfold object_check in H. destruct (crossed Z.ltb (o_min f) (o_max f)) eqn:C.
    { apply Here. intros (K & _). apply crossed_bounds in K. congruence. }
    destruct (o_pprops f) as [m|] eqn:Epp.
    + destruct (o_addl f) as [[|]|] eqn:Ea.
      2:{ apply Here. intros (_ & K & _). rewrite Epp, Ea in K. apply K; congruence. }
      all: destruct (get_props h m) as [l|] eqn:El; [|discriminate].
      all: destruct (check_all (check n O h) (bases l)) as [[]| | |] eqn:Ec; cbn [rbind] in H; try discriminate.
      2,4: apply check_all_err in Ec; destruct Ec as (x & X1 & X2); apply in_bases in X1;
        destruct X1 as (k & p & X3 & <-); apply (Desc (p_base p)); [discriminate| |exact X2];
        eapply ch_pprop; [right; exists m; eauto|exact X3].
      all: destruct (o_props f) as [m'|] eqn:Ep.
      2,4: destruct (o_disc f) as [d|] eqn:Ed; [|discriminate]; apply Here; intros (_ & _ & K);
        destruct (K d Ed) as (ps & p & s & K1 & K2 & _); rewrite Ep in K1;
        destruct K1 as [[_ ->]|(? & ? & _)]; discriminate.
      all: destruct (get_props h m') as [l'|] eqn:El'; [|discriminate].
      all: destruct (check_all (check n O h) (bases l')) as [[]| | |] eqn:Ec'; cbn [rbind] in H; try discriminate.
      2,4: apply check_all_err in Ec'; destruct Ec' as (x & X1 & X2); apply in_bases in X1;
        destruct X1 as (k & p & X3 & <-); apply (Desc (p_base p)); [discriminate| |exact X2];
        eapply ch_prop; [right; exists m'; eauto|exact X3].
      all: apply Here; intros (_ & _ & K); apply disc_err in H; apply H; intros d Hd;
        destruct (K d Hd) as (ps & p & s & K1 & K2 & K3 & K4 & K5); rewrite Ep in K1;
        destruct K1 as [[? _]|(m2 & M1 & M2)]; [discriminate|]; injection M1 as <-;
        assert (ps = l') by congruence; subst ps; exists p, s; repeat (split; [assumption|]);
        intros v Hv E; eapply validate_complete; eauto.
    + cbn [rbind] in H.
      destruct (o_props f) as [m'|] eqn:Ep.
      2:{ destruct (o_disc f) as [d|] eqn:Ed; [|discriminate]. apply Here. intros (_ & _ & K).
        destruct (K d Ed) as (ps & p & s & K1 & K2 & _). rewrite Ep in K1.
        destruct K1 as [[_ ->]|(? & ? & _)]; discriminate. }
      destruct (get_props h m') as [l'|] eqn:El'; [|discriminate].
      destruct (check_all (check n O h) (bases l')) as [[]| | |] eqn:Ec'; cbn [rbind] in H; try discriminate.
      2:{ apply check_all_err in Ec'. destruct Ec' as (x & X1 & X2). apply in_bases in X1.
        destruct X1 as (k & p & X3 & <-). apply (Desc (p_base p)); [discriminate| |exact X2].
        eapply ch_prop; [right; exists m'; eauto|exact X3]. }
      apply Here. intros (_ & _ & K). apply disc_err in H. apply H. intros d Hd.
      destruct (K d Hd) as (ps & p & s & K1 & K2 & K3 & K4 & K5). rewrite Ep in K1.
      destruct K1 as [[? _]|(m2 & M1 & M2)]; [discriminate|]. injection M1 as <-.
      assert (ps = l') by congruence. subst ps. exists p, s. repeat (split; [assumption|]).
      intros v Hv E. eapply validate_complete; eauto.
  - destruct (get_slice h anyof) as [l|] eqn:El; [|discriminate].
    apply check_all_err in H. destruct H as (x & X1 & X2).
    apply (Desc x); [discriminate| |exact X2]. econstructor; eauto.
  - apply Here. simpl. tauto.
Qed.

(** * Examples *)
Lemma validate_all_ok val l : validate_all val l = Ok tt <-> forall v, In v l -> val v = Ok tt.
Proof.
  induction l as [|x l IH]; cbn [validate_all].
  - split; [intros _ v []|reflexivity].
  - rewrite rbind_ok. setoid_rewrite IH. split.
    + intros ([] & A & B) v [<-|K]; auto.
    + intros H. exists tt. split; [apply H; now left|]. intros v K. apply H. now right.
Qed.

Lemma examples_ok val b : validate_examples val b = Ok tt -> forall v, sample b v -> val v = Ok tt.
Proof.
  unfold validate_examples. rewrite !rbind_ok. intros ([] & A & B).
  apply rbind_ok in B. destruct B as ([] & B & C).
  intros v [H|[(l & k & H & K)|H]]; rewrite H in *; auto.
  rewrite validate_all_ok in B. apply B. apply in_map_iff. exists (k, v). auto.
Qed.

Lemma commons_local n O h a b :
  get_base h a = Some b -> commons (S n) O h a = Ok tt ->
  validate_facets n (validate n O h) h b = Ok tt
  /\ (forall v, sample b v -> validate n O h a v = Ok tt)
  /\ (forall sh c, b_shape b = Some sh -> (forall hd, sh <> SRec hd) -> child h sh c -> commons n O h c = Ok tt)
  /\ (forall m k p, get_props h (b_fdefs b) = Some m -> In (k, p) m -> commons n O h (p_base p) = Ok tt).
Proof.
  intros Eb H. cbn [commons] in H. rewrite Eb in H.
  apply rbind_ok in H. destruct H as ([] & H1 & H).
  apply rbind_ok in H. destruct H as ([] & H2 & H).
  apply rbind_ok in H. destruct H as ([] & H3 & H4).
  split; [exact H1|]. split; [exact (examples_ok _ _ H2)|]. split.
  - intros sh c Es N K. rewrite Es in H3. inversion K; subst.
    + rewrite H in H3. exact H3.
    + destruct (opt_props h (o_props f)) as [l1|] eqn:E1; [|discriminate].
      destruct (opt_props h (o_pprops f)) as [l2|] eqn:E2; [|discriminate].
      apply rbind_ok in H3. destruct H3 as ([] & H3 & _).
      apply opt_props_of in E1. assert (l1 = ps) by (eapply props_of_fun; eauto). subst l1.
      rewrite check_all_ok in H3. apply H3. apply in_bases. eauto.
    + destruct (opt_props h (o_props f)) as [l1|] eqn:E1; [|discriminate].
      destruct (opt_props h (o_pprops f)) as [l2|] eqn:E2; [|discriminate].
      apply rbind_ok in H3. destruct H3 as ([] & _ & H3).
      apply opt_props_of in E2. assert (l2 = ps) by (eapply props_of_fun; eauto). subst l2.
      rewrite check_all_ok in H3. apply H3. apply in_bases. eauto.
    + rewrite H in H3. rewrite check_all_ok in H3. auto.
    + exfalso. eapply N. reflexivity.
  - intros m k p Em Hin. rewrite Em in H4. rewrite check_all_ok in H4. apply H4.
    apply in_bases. eauto.
Qed.

Lemma commons_parts n O h a d :
  part_of h a d -> commons n O h a = Ok tt ->
  (exists b, get_base h a = Some b) -> forall b, get_base h d = Some b -> exists m, commons (S m) O h d = Ok tt.
Proof.
  intros P. revert n. induction P as [a|a sh c d Hsh N K P IH|a b0 m k p d Eb Em Hin P IH]; intros n H HB b Hb.
  - destruct n as [|n]; [discriminate|]. eauto.
  - destruct n as [|n]; [discriminate|]. destruct Hsh as (b0 & Eb & Es).
    destruct (commons_local n O h a b0 Eb H) as (_ & _ & C & _).
    pose proof (C sh c Es N K) as Hc. apply (IH n Hc) with (b := b); [|exact Hb].
    destruct n as [|n]; [discriminate|]. cbn [commons] in Hc.
    destruct (get_base h c); [eauto|discriminate].
  - destruct n as [|n]; [discriminate|].
    destruct (commons_local n O h a b0 Eb H) as (_ & _ & _ & C).
    pose proof (C m k p Em Hin) as Hc. apply (IH n Hc) with (b := b); [|exact Hb].
    destruct n as [|n]; [discriminate|]. cbn [commons] in Hc.
    destruct (get_base h (p_base p)); [eauto|discriminate].
Qed.

Lemma commons_base n O h a : commons n O h a = Ok tt -> exists b, get_base h a = Some b.
Proof.
  destruct n; [discriminate|]. cbn [commons]. destruct (get_base h a); [eauto|discriminate].
Qed.

Lemma commons_samples n O h a d b v :
  commons n O h a = Ok tt -> part_of h a d -> get_base h d = Some b -> sample b v ->
  returns_nil O h d v.
Proof.
  intros H P Hb Hs. destruct (commons_parts n O h a d P H (commons_base _ _ _ _ H) b Hb) as [m Hm].
  destruct (commons_local m O h d b Hb Hm) as (_ & A & _). exists m. auto.
Qed.

(** * Custom facets *)
Lemma oget_oset {A} k k' (v : A) m : oget k (oset k' v m) = if String.eqb k k' then Some v else oget k m.
Proof.
  induction m as [|[k0 v0] m IH]; cbn [oset oget].
  - destruct (String.eqb k k'); reflexivity.
  - destruct (String.eqb k' k0) eqn:E; cbn [oget].
    + apply String.eqb_eq in E. subst k0. destruct (String.eqb k k'); reflexivity.
    + rewrite IH. destruct (String.eqb k k0) eqn:E2; [|reflexivity].
      apply String.eqb_eq in E2. subst k0. rewrite String.eqb_sym in E. rewrite E. reflexivity.
Qed.

Lemma collect_defs_ok own l : forall acc defs, collect_defs own l acc = Ok defs ->
  (forall k d, In (k, d) l -> oget (p_name d) own = None /\ exists d', oget (p_name d) defs = Some d')
  /\ (forall k d, oget k defs = Some d -> (exists k', In (k', d) l /\ p_name d = k) \/ oget k acc = Some d)
  /\ (forall k d, oget k acc = Some d -> exists d', oget k defs = Some d').
Proof.
  induction l as [|[k0 f] l IH]; intros acc defs; cbn [collect_defs].
  - intros H. injection H as <-. split; [intros k d []|]. split; eauto.
  - destruct (oget (p_name f) own) as [x|] eqn:E; [discriminate|].
    intros H. apply IH in H. destruct H as (A & B & C). split; [|split].
    + intros k d [K|K].
      * injection K as <- <-. split; [exact E|]. apply (C _ f). rewrite oget_oset, String.eqb_refl. reflexivity.
      * eauto.
    + intros k d K. destruct (B k d K) as [(k' & K1 & K2)|K1].
      * left. exists k'. split; [now right|exact K2].
      * rewrite oget_oset in K1. destruct (String.eqb k (p_name f)) eqn:E2.
        -- apply String.eqb_eq in E2. injection K1 as <-. left. exists k0. split; [now left|congruence].
        -- right. exact K1.
    + intros k d K. destruct (String.eqb k (p_name f)) eqn:E2.
      * apply (C k f). rewrite oget_oset, E2. reflexivity.
      * apply (C k d). rewrite oget_oset, E2. exact K.
Qed.

Lemma facet_defs_ok n : forall h own b acc defs,
  facet_defs n h own (b_inherits b) acc = Ok defs ->
  (forall c d, ancestor h b c -> defines_facet h c d ->
     oget (p_name d) own = None /\ exists d', oget (p_name d) defs = Some d')
  /\ (forall k d, oget k defs = Some d ->
        (exists c, ancestor h b c /\ defines_facet h c d /\ p_name d = k) \/ oget k acc = Some d)
  /\ (forall k d, oget k acc = Some d -> exists d', oget k defs = Some d').
Proof.
  induction n as [|n IH]; intros h own b acc defs; cbn [facet_defs]; [discriminate|].
  destruct (get_slice h (b_inherits b)) as [[|p l]|] eqn:Es; [| |discriminate].
  - intros H. injection H as <-.
    assert (NA : forall c, ~ ancestor h b c).
    { intros c K. inversion K as [x y Hp|x y z Hp]; subst; destruct Hp as (p & l & P1 & _); congruence. }
    split; [intros c d K; exfalso; eapply NA; eauto|]. split; eauto.
  - destruct (get_base h p) as [pb|] eqn:Ep; [|discriminate].
    destruct (get_props h (b_fdefs pb)) as [m|] eqn:Em; [|discriminate].
    rewrite rbind_ok. intros (acc' & H1 & H2).
    apply collect_defs_ok in H1. destruct H1 as (A1 & A2 & A3).
    apply IH in H2. destruct H2 as (B1 & B2 & B3).
    assert (HP : forall c, parent h b c -> c = pb).
    { intros c (p' & l' & P1 & P2). congruence. }
    split; [|split].
    + intros c d K F. inversion K as [x y Hp|x y z Hp Hq]; subst.
      * apply HP in Hp. subst c. destruct F as (m' & k & F1 & F2).
        assert (m' = m) by congruence. subst m'.
        destruct (A1 k d F2) as [C1 [d' C2]]. split; [exact C1|eauto].
      * apply HP in Hp. subst y. eauto.
    + intros k d K. destruct (B2 k d K) as [(c & C1 & C2 & C3)|K1].
      * left. exists c. split; [|auto]. eapply anc_more; eauto. exists p, l. auto.
      * destruct (A2 k d K1) as [(k' & C1 & C2)|C1]; [|now right].
        left. exists pb. split; [apply anc_one; exists p, l; auto|]. split; [|exact C2].
        exists m, k'. auto.
    + intros k d K. destruct (A3 k d K) as [d' D]. eauto.
Qed.

Lemma facets_loop_ok val given defs : facets_loop val given defs = Ok tt ->
  forall k d, In (k, d) defs ->
    (p_req d = true -> exists v, oget k given = Some v)
    /\ (forall v, oget k given = Some v -> val (p_base d) v = Ok tt).
Proof.
  induction defs as [|[k0 d0] defs IH]; cbn [facets_loop]; [intros _ k d []|].
  rewrite rbind_ok. intros ([] & A & B) k d [K|K]; [|auto].
  injection K as <- <-. destruct (oget k0 given) as [v|].
  - split; [eauto|]. intros w E. injection E as <-. exact A.
  - split; [|discriminate]. destruct (p_req d0); discriminate.
Qed.

Lemma facets_local n val h b :
  validate_facets n val h b = Ok tt ->
  (forall c d, ancestor h b c -> defines_facet h c d ->
     forall m, get_props h (b_fdefs b) = Some m -> oget (p_name d) m = None)
  /\ (forall k v, gives_facet h b k v -> exists c d, ancestor h b c /\ defines_facet h c d /\ p_name d = k)
  /\ (forall c d, ancestor h b c -> defines_facet h c d ->
        exists c' d', ancestor h b c' /\ defines_facet h c' d' /\ p_name d' = p_name d
          /\ (p_req d' = true -> exists v, gives_facet h b (p_name d) v)
          /\ (forall v, gives_facet h b (p_name d) v -> val (p_base d') v = Ok tt)).
Proof.
  unfold validate_facets.
  destruct (get_props h (b_fdefs b)) as [own|] eqn:Eo; [|discriminate].
  destruct (get_facets h (b_facets b)) as [given|] eqn:Eg; [|discriminate].
  rewrite !rbind_ok. intros (defs & A & B).
  apply rbind_ok in B. destruct B as ([] & B & C).
  apply facet_defs_ok in A. destruct A as (A1 & A2 & _).
  assert (HG : forall k v, gives_facet h b k v <-> oget k given = Some v).
  { intros k v. split; [intros (m & M1 & M2); congruence|intros H; exists given; auto]. }
  split; [|split].
  - intros c d K F m Hm. assert (m = own) by congruence. subst m. eapply A1; eauto.
  - intros k v K. apply HG in K. apply oget_in in K.
    destruct (forallb _ given) eqn:Fb; [|discriminate].
    rewrite forallb_forall in Fb. specialize (Fb _ K). simpl in Fb.
    destruct (oget k defs) as [d|] eqn:Ed; [|discriminate].
    destruct (A2 k d Ed) as [(c & C1 & C2 & C3)|C1]; [eauto 6|discriminate].
  - intros c d K F. destruct (A1 c d K F) as [_ [d' D']].
    destruct (A2 _ _ D') as [(c' & C1 & C2 & C3)|C1]; [|discriminate].
    exists c', d'. split; [exact C1|]. split; [exact C2|]. split; [exact C3|].
    destruct (facets_loop_ok _ _ _ B _ _ (oget_in _ _ _ D')) as [L1 L2]. split.
    + intros R. destruct (L1 R) as [v Hv]. exists v. now apply HG.
    + intros v Hv. apply L2. now apply HG.
Qed.

Lemma parent_fun h b c c' : parent h b c -> parent h b c' -> c = c'.
Proof. intros (p & l & A & B) (p' & l' & A' & B'). congruence. Qed.

Lemma ancestor_linear h b c : ancestor h b c -> forall c', ancestor h b c' ->
  c = c' \/ ancestor h c c' \/ ancestor h c' c.
Proof.
  induction 1 as [b c P|b x c P A IH]; intros c' H.
  - inversion H as [y z P'|y z w P' A']; subst.
    + left. eapply parent_fun; eauto.
    + right. left. rewrite (parent_fun _ _ _ _ P P'). exact A'.
  - inversion H as [y z P'|y z w P' A']; subst.
    + right. right. rewrite (parent_fun _ _ _ _ P' P). exact A.
    + assert (z = x) by (eapply parent_fun; eauto). subst z. auto.
Qed.

Lemma ancestor_base h b c : ancestor h b c -> exists a, get_base h a = Some c.
Proof. induction 1 as [b c (p & l & A & B)|]; eauto. Qed.

Lemma nodup_keys_in {A} k (d : A) m : NoDup (map fst m) -> In (k, d) m -> oget k m = Some d.
Proof.
  induction m as [|[k0 d0] m IH]; cbn [oget map fst]; intros ND H; [destruct H|].
  inversion ND as [|x l N1 N2]; subst. destruct H as [H|H].
  - injection H as -> ->. rewrite String.eqb_refl. reflexivity.
  - destruct (String.eqb k k0) eqn:E; [|auto].
    apply String.eqb_eq in E. subst k0. exfalso. apply N1. apply in_map_iff. exists (k, d). auto.
Qed.

(** If every ancestor passes too, names are unique along the chain, so each
    definition is enforced. *)
Lemma facets_enforced n O h a b :
  facets_keyed h -> get_base h a = Some b -> commons n O h a = Ok tt ->
  (forall c, ancestor h b c -> exists m ca, get_base h ca = Some c /\ commons m O h ca = Ok tt) ->
  (forall c d d', ancestor h b c -> defines_facet h c d -> defines_facet h b d' -> p_name d <> p_name d')
  /\ (forall k v, gives_facet h b k v -> exists c d, ancestor h b c /\ defines_facet h c d /\ p_name d = k)
  /\ (forall c d, ancestor h b c -> defines_facet h c d ->
        (p_req d = true -> exists v, gives_facet h b (p_name d) v)
        /\ (forall v, gives_facet h b (p_name d) v -> returns_nil O h (p_base d) v)).
Proof.
  intros HK Eb H HA. destruct n as [|n]; [discriminate|].
  destruct (commons_local n O h a b Eb H) as (F & _).
  assert (Dup : forall x b n, get_base h x = Some b -> validate_facets n (validate n O h) h b = Ok tt ->
    forall c d d', ancestor h b c -> defines_facet h c d -> defines_facet h b d' -> p_name d <> p_name d').
  { intros x b' n' Ex F' c d d' A D (m & k & D1 & D2) E.
    destruct (HK x b' m Ex D1) as [N1 N2].
    destruct (facets_local _ _ _ _ F') as (L & _). specialize (L c d A D m D1).
    rewrite E, (N2 _ _ D2) in L. rewrite (nodup_keys_in _ _ _ N1 D2) in L. discriminate. }
  destruct (facets_local _ _ _ _ F) as (L1 & L2 & L3).
  split; [eapply Dup; eauto|]. split; [exact L2|].
  intros c d A D. destruct (L3 c d A D) as (c' & d' & A' & D' & E & R & V).
  assert (d' = d).
  { destruct (ancestor_linear h b c A c' A') as [->|[B|B]].
    - destruct (ancestor_base _ _ _ A') as [x Hx].
      destruct D as (m & k & M1 & M2), D' as (m' & k' & M1' & M2').
      assert (m' = m) by congruence. subst m'.
      destruct (HK x c' m Hx M1) as [N1 N2].
      rewrite (N2 _ _ M2), (N2 _ _ M2') in E. subst k'.
      apply (nodup_keys_in _ _ _ N1) in M2. apply (nodup_keys_in _ _ _ N1) in M2'. congruence.
    - destruct (HA c A) as (m & ca & Hca & Hm). destruct m as [|m]; [discriminate|].
      destruct (commons_local m O h ca c Hca Hm) as (Fc & _).
      exfalso. exact (Dup ca c m Hca Fc c' d' d B D' D E).
    - destruct (HA c' A') as (m & ca & Hca & Hm). destruct m as [|m]; [discriminate|].
      destruct (commons_local m O h ca c' Hca Hm) as (Fc & _).
      exfalso. exact (Dup ca c' m Hca Fc c d d' B D D' (eq_sym E)). }
  subst d'. split; [exact R|]. intros v Hv. exists n. auto.
Qed.
