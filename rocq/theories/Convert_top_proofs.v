(** Proofs about the result of Convert as a whole. *)
From Coq Require Import ZArith List String Ascii Bool Lia.
From Verif Require Import Base Scalars Spec_Scalars Heap Heap_lemmas Spec_Validate Schema Convert Spec_Schema
  Convert_proofs Convert_meaning_proofs.
From Verif Require Validate_proofs.
Import ListNotations.
Open Scope string_scope.
Open Scope list_scope.
Open Scope nat_scope.

Section Top.
Variable E : cenv.
Variable a : addr.
Let h := c_heap E.

Lemma refs_resolve n S0 :
  convert n true E a = Ok S0 ->
  (forall x raw r, occurs h a x -> shape_at h x (SJSON raw) -> ~ refers (c_json E raw) r) ->
  (forall x, named_type h a x -> ~ shape_at h x SUnknown) ->
  forall r, refers S0 r -> resolves S0 r.
Proof.
  intros H J U r R. destruct (convert_good E a J n S0 H) as (b & s & d & G & Sb & _ & -> & Gs & M & Rs & ND & All).
  assert (OK : forall q, ok_ref d q -> resolves (Sch (Kw schema_version "" (def_ref (b_name b)) "" None "" None GNil None None None
               None None "" None None None None None None None [] "" "" "" "" "" GNil [])
         d [] [] [] Null Null Null Null Null None None Null None None None) q).
  { intros q (m & -> & D). destruct (oget m d) as [t|] eqn:T; [|congruence]. exists m, t. split; auto. split; [now apply oget_some_in|].
    destruct (All m t T) as [[-> ->]|(r0 & hd & hb & Oc & Sr & Gh & Sh & Nm & Mh & _)].
    - destruct (b_shape b) as [sh|] eqn:Bs; [|congruence]. eapply mirrors_not_null; [exact M|exists b; eauto|]. intros ->.
      apply (U a); [constructor|]. exists b; auto.
    - destruct (b_shape hb) as [sh|] eqn:Bs; [|congruence]. eapply mirrors_not_null; [exact Mh|exists hb; eauto|]. intros ->.
      apply (U hd); [econstructor; eauto|]. exists hb; auto. }
  apply OK. apply refers_iff in R. destruct R as [N [R|(t & I & R)]].
  - simpl in R. subst r. exists (b_name b). split; auto. congruence.
  - unfold below_schema in I. rewrite !in_app_iff in I.
    destruct I as [I|[I|[I|[I|[I|[I|[I|I]]]]]]]; try (destruct I; fail).
    + apply in_map_iff in I. destruct I as ([m t'] & <- & I). simpl in R. apply oget_nodup in I; auto.
      destruct (All m t' I) as [[-> ->]|(r0 & hd & hb & Oc & Sr & Gh & Sh & Nm & Mh & Rh)]; auto.
    + simpl in I. destruct I as [<-|[<-|[<-|[<-|[<-|[<-|[]]]]]]]; destruct (refers_null _ R).
Qed.

Section Same.
Variable O : oracle.
Variable F : string -> string -> bool.
Hypothesis same : forall x sh, occurs h a x -> shape_at h x sh -> same_meaning O F h sh.
Hypothesis cl : forall x sh, occurs h a x -> shape_at h x sh -> closed_shape h sh.
Hypothesis apart : names_apart h a.

Lemma no_json : forall x raw r, occurs h a x -> shape_at h x (SJSON raw) -> ~ refers (c_json E raw) r.
Proof. intros x raw r Oc Sh. destruct (same _ _ Oc Sh). Qed.

Lemma heads_of d b s :
  get_base h a = Some b -> mirrors E a s -> refs_ok s d ->
  (forall n s', oget n d = Some s' -> n = b_name b /\ s' = s
     \/ exists r hd hb, occurs h a r /\ shape_at h r (SRec hd) /\ get_base h hd = Some hb /\ b_shape hb <> None /\ b_name hb = n /\ mirrors E hd s'
          /\ refs_ok s' d) ->
  forall r hd hb t, occurs h a r -> shape_at h r (SRec hd) -> get_base h hd = Some hb ->
    oget (b_name hb) d = Some t -> mirrors E hd t /\ refs_ok t d.
Proof.
  intros G M R All r hd hb t Oc Sr Gh T.
  destruct (All _ _ T) as [[Nm ->]|(r' & hd' & hb' & Oc' & Sr' & Gh' & _ & Nm & Mh & Rh)].
  - assert (hd = a) by exact (apart hd a hb b (nt_head _ _ r hd Oc Sr) (nt_entry _ _) Gh G Nm). subst hd. auto.
  - assert (hd' = hd) by exact (apart hd' hd hb' hb (nt_head _ _ r' hd' Oc' Sr') (nt_head _ _ r hd Oc Sr) Gh' Gh Nm). subst hd'. auto.
Qed.

Lemma conversion_same n S0 v :
  convert n true E a = Ok S0 -> json_value v -> fits_types h a v ->
  (valid O h a v <-> satisfies O F (definitions S0) S0 v).
Proof.
  intros H J Ft. destruct (convert_good E a no_json n S0 H) as (b & s & d & G & Sb & _ & -> & Gs & M & Rs & ND & All).
  pose proof (heads_of d b s G M Rs All) as Hd. simpl definitions. split.
  - intros V. apply satisfies_fold. simpl. exists (b_name b), s. split; auto. split; auto.
    apply (valid_satisfies O F E a d same Hd a v V s (oc_refl _ _) M Rs). split; auto.
  - intros V. apply satisfies_unfold in V. simpl in V. destruct V as (n0 & t & Nn & T & V).
    change (def_ref (b_name b) = def_ref n0) in Nn. apply def_ref_inj in Nn. subst n0.
    assert (t = s) by congruence. subst t.
    apply (satisfies_valid O F E a d same cl Hd s v V a (oc_refl _ _) M Rs). split; auto.
Qed.

Lemma part_occurs x : part_of h a x -> occurs h a x.
Proof.
  induction 1 as [|x sh y Px IH Sh Ch]; [constructor|]. destruct sh as [| | | | | | | | | | | | | | | |hd];
    try (eapply oc_visit; [exact IH|]; eapply vi_child; [exact Sh|discriminate|exact Ch]).
  inversion Ch; subst. eapply oc_head; eauto.
Qed.

Lemma part_mirrored d (heads : forall r hd hb t, occurs h a r -> shape_at h r (SRec hd) -> get_base h hd = Some hb ->
  oget (b_name hb) d = Some t -> mirrors E hd t /\ refs_ok t d) s : mirrors E a s -> refs_ok s d ->
  forall x, part_of h a x -> exists t, mirrors E x t /\ refs_ok t d.
Proof.
  intros M R x Px. induction Px as [|x sh y Px IH Sh Ch]; [eauto|]. destruct IH as (t & Mx & Rx).
  pose proof (part_occurs _ Px) as Oc.
  destruct Mx as [x b sh' k e G Sb K|x b f si e G Sb Hi|x b f l ls pl pls e G Sb L PL N1 N2 F2 Pq Pk|x b sl e l ms w G Sb Gl F2|x hd hb Sr Gh|x raw s' Sr N|x b G Sb];
    try fold h in G; try fold h in L; try fold h in PL; try fold h in Gl; try fold h in Sr; try fold h in Gh.
  - assert (sh = sh') by (eapply Validate_proofs.shape_at_fun; [exact Sh|exists b; auto]). subst sh'.
    destruct Ch; discriminate K.
  - assert (sh = SArray f) by (eapply Validate_proofs.shape_at_fun; [exact Sh|exists b; auto]). subst sh. inversion Ch; subst.
    destruct Hi as [[Na _]|(i' & Ia' & Mi)]; [congruence|]. assert (i' = y) by congruence. subst i'. exists si. split; auto.
    eapply refs_below; [exact Rx|apply below_items].
  - assert (sh = SObject f) by (eapply Validate_proofs.shape_at_fun; [exact Sh|exists b; auto]). subst sh.
    inversion Ch as [|f' ps k p Lp Ip|f' ps k p Lp Ip| |]; subst.
    + rewrite (Validate_proofs.props_of_fun _ _ _ _ Lp L) in Ip. destruct (Forall2_in_l _ _ _ F2 _ Ip) as ([k' t] & It & Ek & Mt). simpl in *.
      exists t. split; auto. eapply refs_below; [exact Rx|].
      unfold node_with, below_schema. rewrite !in_app_iff. do 5 right. left. apply in_map_iff. exists (k', t). auto.
    + rewrite (Validate_proofs.props_of_fun _ _ _ _ Lp PL) in Ip. destruct (same _ _ Oc Sh) as [_ SM2].
      destruct (SM2 l pl L PL) as (_ & ND2 & Sl & _).
      destruct (Pk k p Ip) as (q & t & Uq & It). destruct (Pq q t It) as (k2 & p2 & Ip2 & Uq2 & Mp2).
      rewrite (Sl k p Ip), unslash_slashes in Uq. rewrite (Sl k2 p2 Ip2), unslash_slashes in Uq2.
      assert (Ek : k2 = k) by (rewrite (Sl k p Ip), (Sl k2 p2 Ip2); congruence). subst k2.
      assert (Ep : Some p2 = Some p) by (rewrite <- (oget_nodup k pl p2 ND2 Ip2); apply oget_nodup; auto). injection Ep as ->.
      exists t. split; auto. eapply refs_below; [exact Rx|]. eapply below_pprop; eauto.
  - assert (sh = SUnion sl e) by (eapply Validate_proofs.shape_at_fun; [exact Sh|exists b; auto]). subst sh.
    inversion Ch as [| | |sl' e' l' m Gl' Im|]; subst. assert (l' = l) by congruence. subst l'.
    destruct (Forall2_in_l _ _ _ F2 _ Im) as (t & It & Mt). exists t. split; auto. eapply refs_below; [exact Rx|now apply below_any].
  - assert (sh = SRec hd) by (eapply Validate_proofs.shape_at_fun; eauto). subst sh. inversion Ch; subst.
    destruct (ref_target E a d heads _ _ _ Oc Sh Gh Rx) as (t & T & Mt & Rt). eauto.
  - destruct (same _ _ Oc Sr).
  - destruct Sh as (b' & G' & Sb'). assert (b' = b) by congruence. subst b'. destruct Sb as [Sb|Sb]; [|congruence].
    assert (sh = SUnknown) by congruence. subst. inversion Ch.
Qed.

Lemma heads_keep n S0 r hd hb :
  convert n true E a = Ok S0 -> part_of h a r -> shape_at h r (SRec hd) -> get_base h hd = Some hb ->
  exists t, In (b_name hb, t) (definitions S0)
    /\ (forall t', In (b_name hb, t') (definitions S0) -> t' = t)
    /\ forall v, json_value v -> fits_types h a v -> (valid O h hd v <-> satisfies O F (definitions S0) t v).
Proof.
  intros H Pr Sr Gh. destruct (convert_good E a no_json n S0 H) as (b & s & d & G & Sb & _ & -> & Gs & M & Rs & ND & All).
  pose proof (heads_of d b s G M Rs All) as Hd. simpl definitions.
  destruct (part_mirrored d Hd s M Rs r Pr) as (t0 & Mr & Rr). pose proof (part_occurs _ Pr) as Oc.
  assert (Lr : t0 = leaf (with_ref (def_ref (b_name hb)) kw0)).
  { destruct Mr as [x b' sh' k e G' Sb' K|x b' f si e G' Sb' Hi|x b' f l ls pl pls e G' Sb' L PL N1 N2 F2 Pq Pk|x b' sl e l ms w G' Sb' Gl F2|x hd' hb' Sr' Gh'|x raw s' Sr' N|x b' G' Sb'];
      destruct Sr as (b2 & G2 & S2); try fold h in G'.
    - assert (b2 = b') by congruence. subst. assert (sh' = SRec hd) by congruence. subst. discriminate K.
    - exfalso. congruence.
    - exfalso. congruence.
    - exfalso. congruence.
    - fold h in Sr', Gh'. destruct Sr' as (b3 & G3 & S3). assert (b3 = b2) by congruence. subst b3.
      assert (hd' = hd) by congruence. subst hd'. congruence.
    - exfalso. fold h in Sr'. destruct Sr' as (b3 & G3 & S3). congruence.
    - exfalso. assert (b2 = b') by congruence. subst. destruct Sb'; congruence. }
  subst t0. destruct (ref_target E a d Hd _ _ _ Oc Sr Gh Rr) as (t & T & Mt & Rt). exists t.
  split; [now apply oget_some_in|]. split.
  { intros t' I. apply (oget_nodup _ _ _ ND) in I. congruence. }
  assert (Och : occurs h a hd) by (eapply oc_head; eauto).
  intros v J Ft. split; intros V.
  - apply (valid_satisfies O F E a d same Hd hd v V t Och Mt Rt). split; auto.
  - apply (satisfies_valid O F E a d same cl Hd t v V hd Och Mt Rt). split; auto.
Qed.
End Same.
End Top.

(** * Objects *)

Lemma required_names_of l : required_of l (required_names l).
Proof.
  induction l as [|[k p] l IH]; [constructor|]. unfold required_names in *. simpl. destruct (p_req p) eqn:R; [now constructor|now apply rq_no].
Qed.

Lemma cmap_keys {A B} (f : A -> C B) l : forall d r d', cmap f l d = Ok (r, d') -> map fst r = map fst l.
Proof.
  induction l as [|[k x] l IH]; intros d r d' H; simpl in H.
  - apply cret_ok in H. destruct H as [-> _]. reflexivity.
  - apply cbind_ok in H. destruct H as (y & d1 & H1 & H). apply cbind_ok in H. destruct H as (ys & d2 & H2 & H).
    apply cret_ok in H. destruct H as [-> _]. simpl. f_equal. eapply IH; eauto.
Qed.

Lemma oset_fresh_snoc {A} k (v : A) l : ~ In k (map fst l) -> oset k v l = l ++ [(k, v)].
Proof.
  induction l as [|[k' x] l IH]; simpl; auto. intros N. destruct (String.eqb k k') eqn:K.
  - apply String.eqb_eq in K. subst. tauto.
  - f_equal. apply IH. tauto.
Qed.

Lemma patterns_keys rec l : forall acc d r d', visit_patterns rec l acc d = Ok (r, d') ->
  forall qs, Forall2 (fun kp q => fst kp = ("/" ++ q ++ "/")%string) l qs -> NoDup (map fst acc ++ qs) -> map fst r = map fst acc ++ qs.
Proof.
  induction l as [|[k p] l IH]; intros acc d r d' H qs Fq ND; simpl in H; inversion Fq as [|x q l' qs' E1 E2]; subst.
  - apply cret_ok in H. destruct H as [-> _]. now rewrite app_nil_r.
  - apply cbind_ok in H. destruct H as (k' & d1 & H1 & H). apply cread_ok in H1. destruct H1 as [U ->].
    apply cbind_ok in H. destruct H as (y & d2 & H2 & H). cbn [fst] in E1. subst k. rewrite unslash_slashes in U. injection U as <-.
    rewrite (oset_fresh_snoc q y acc) in H.
    + rewrite (IH _ _ _ _ H qs' E2); [rewrite map_app, <- app_assoc; reflexivity|]. rewrite map_app, <- app_assoc. exact ND.
    + intros I. apply NoDup_remove_2 in ND. apply ND. apply in_or_app. now left.
Qed.

Lemma object_converted n E a d s d' f l pl qs :
  visit n E a d = Ok (s, d') -> shape_at (c_heap E) a (SObject f) ->
  props_of (c_heap E) (o_props f) l -> props_of (c_heap E) (o_pprops f) pl ->
  Forall2 (fun kp q => fst kp = ("/" ++ q ++ "/")%string) pl qs -> NoDup qs ->
  k_type (keywords s) = "object"
  /\ map fst (entries (properties s)) = map fst l
  /\ (properties s = None <-> o_props f = None)
  /\ required_of l (k_required (keywords s))
  /\ map fst (entries (pattern_properties s)) = qs
  /\ (pattern_properties s = None <-> o_pprops f = None)
  /\ k_addl (keywords s) = o_addl f /\ k_minprops (keywords s) = o_min f /\ k_maxprops (keywords s) = o_max f.
Proof.
  intros H (b & G & Sh) L PL Fq ND. destruct n as [|n]; [discriminate|].
  change (visit (S n) E a) with (visit_body E (visit n E) a) in H. unfold visit_body in H.
  apply cbind_ok in H. destruct H as (b' & d0 & H0 & H). apply cread_ok in H0. destruct H0 as [G' ->].
  assert (b' = b) by congruence. subst b'. rewrite Sh in H. unfold visit_object in H.
  apply cbind_ok in H. destruct H as (x & d1 & H1 & H).
  apply cbind_ok in H. destruct H as (ps & d2 & H2 & H).
  apply cbind_ok in H. destruct H as (req & d3 & H3 & H).
  apply cbind_ok in H. destruct H as (pps & d4 & H4 & H). apply cret_ok in H. destruct H as [-> ->].
  assert (P1 : map fst (entries ps) = map fst l /\ (ps = None <-> o_props f = None)).
  { unfold visit_map in H2. destruct (o_props f) as [m|].
    - apply cbind_ok in H2. destruct H2 as (l' & d5 & H5 & H2). apply cread_ok in H5. destruct H5 as [Gl ->].
      apply cbind_ok in H2. destruct H2 as (r & d5 & H5 & H2). apply cret_ok in H2. destruct H2 as [-> _].
      assert (l' = l) by (eapply Validate_proofs.props_of_fun; [right; eauto|exact L]). subst l'.
      split; [simpl; eapply cmap_keys; eauto|split; discriminate].
    - apply cret_ok in H2. destruct H2 as [-> _]. destruct L as [[_ ->]|(m & Em & _)]; [|discriminate]. split; [reflexivity|tauto]. }
  assert (P2 : req = required_names l).
  { destruct (o_props f) as [m|].
    - apply cbind_ok in H3. destruct H3 as (l' & d5 & H5 & H3). apply cread_ok in H5. destruct H5 as [Gl ->].
      apply cret_ok in H3. destruct H3 as [-> _].
      assert (l' = l) by (eapply Validate_proofs.props_of_fun; [right; eauto|exact L]). now subst.
    - apply cret_ok in H3. destruct H3 as [-> _]. destruct L as [[_ ->]|(m & Em & _)]; [reflexivity|discriminate]. }
  assert (P3 : map fst (entries pps) = qs /\ (pps = None <-> o_pprops f = None)).
  { destruct (o_pprops f) as [m|].
    - apply cbind_ok in H4. destruct H4 as (l' & d5 & H5 & H4). apply cread_ok in H5. destruct H5 as [Gl ->].
      apply cbind_ok in H4. destruct H4 as (r & d5 & H5 & H4). apply cret_ok in H4. destruct H4 as [-> _].
      assert (l' = pl) by (eapply Validate_proofs.props_of_fun; [right; eauto|exact PL]). subst l'.
      split; [|split; discriminate]. simpl. rewrite (patterns_keys _ _ _ _ _ _ H5 qs Fq); auto.
    - apply cret_ok in H4. destruct H4 as [-> _]. destruct PL as [[_ ->]|(m & Em & _)]; [|discriminate].
      inversion Fq; subst. split; [reflexivity|tauto]. }
  subst req. destruct P1 as [P1 P1']. destruct P3 as [P3 P3']. unfold node_with. simpl.
  repeat (split; auto). apply required_names_of.
Qed.
