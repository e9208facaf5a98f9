(** Proofs that deriving one open type from another gives the values of both
    (C58 for objects and arrays). *)
From Coq Require Import ZArith List String Bool Lia SpecFloat.
From Verif Require Import Base Scalars Spec_Scalars Scalars_proofs Heap Heap_lemmas Spec_Validate Validate_proofs
  Spec_Narrow Spec_Region Spec_Subtype Subtype_proofs Spec_Meet.
Import ListNotations.
Open Scope string_scope.
Open Scope list_scope.
Open Scope nat_scope.

Lemma min_meet t s r z : min_inherit Z.ltb t s = Ok r -> (at_least r z <-> at_least t z /\ at_least s z).
Proof.
  intros H. split.
  - intros K. split; [|eapply min_inherit_at; eauto]. intros m ->. apply K. unfold min_inherit in H.
    destruct s as [b|]; [destruct (Z.ltb m b); [discriminate|]|]; now injection H.
  - intros [K1 K2]. unfold min_inherit in H. destruct t as [a|]; [|injection H as <-; auto].
    destruct s as [b|]; [destruct (Z.ltb a b); [discriminate|]|]; injection H as <-; auto.
Qed.
Lemma max_meet t s r z : max_inherit Z.ltb t s = Ok r -> (at_most r z <-> at_most t z /\ at_most s z).
Proof.
  intros H. split.
  - intros K. split; [|eapply max_inherit_at; eauto]. intros m ->. apply K. unfold max_inherit in H.
    destruct s as [b|]; [destruct (Z.ltb b m); [discriminate|]|]; now injection H.
  - intros [K1 K2]. unfold max_inherit in H. destruct t as [a|]; [|injection H as <-; auto].
    destruct s as [b|]; [destruct (Z.ltb b a); [discriminate|]|]; injection H as <-; auto.
Qed.
Lemma uniq_meet t s r : uniq_inherit t s = Ok r -> (r = Some true <-> t = Some true \/ s = Some true).
Proof.
  unfold uniq_inherit. destruct t as [[]|], s as [[]|]; intros H; try discriminate; injection H as <-; intuition congruence.
Qed.

Lemma in_oget {A} k (v : A) l : NoDup (map fst l) -> In (k, v) l -> oget k l = Some v.
Proof.
  induction l as [|[k' x] l IH]; simpl; intros ND I; [contradiction|]. inversion ND; subst.
  destruct I as [I|I]; [injection I as -> ->; now rewrite String.eqb_refl|].
  destruct (String.eqb_spec k k') as [->|N]; auto. exfalso. apply H1. apply in_map_iff. exists (k', v). auto.
Qed.
Lemma oget_missing l ks k : oget k l = None -> oget k (missing l ks) = oget k ks.
Proof.
  intros E. induction ks as [|[k' p] ks IH]; simpl; auto. destruct (String.eqb_spec k k') as [->|N].
  - rewrite E. simpl. now rewrite String.eqb_refl.
  - destruct (oget k' l); auto. simpl. destruct (String.eqb_spec k k'); [contradiction|]. auto.
Qed.

Section Meet.
Variable pat : string.
Variable fmt : option string.
Variable U : addr -> Prop.
Notation fits := (fits pat fmt U).
Notation ready := (ready U).
Notation agree_on := (agree_on U).

(** The cells of a type and what they lead to. *)
Lemma fits_sealed_all h : sealed U h ->
  (forall vis t src ns, fits h vis t src ns -> sealed (fun x => In x ns \/ U x) h)
  /\ (forall vis i j ns, items_fit pat fmt U h vis i j ns -> sealed (fun x => In x ns \/ U x) h /\ opt_in (fun x => In x ns \/ U x) i)
  /\ (forall vis i j ns, props_fit pat fmt U h vis i j ns -> sealed (fun x => In x ns \/ U x) h /\ opt_in (fun x => In x ns \/ U x) i)
  /\ (forall vis l ks ns, entries_fit pat fmt U h vis l ks ns -> sealed (fun x => In x ns \/ U x) h
        /\ forall k sp tp, In (k, sp) ks -> oget k l = Some tp -> NoDup (map fst ks) -> In (p_base tp) ns).
Proof.
  intros SU.
  assert (S0 : sealed (fun x => In x [] \/ U x) h) by (eapply sealed_ext; [|exact SU]; simpl; tauto).
  assert (Add : forall t sh ns, shape_at h t sh -> sealed (fun x => In x ns \/ U x) h -> shape_in (fun x => In x ns \/ U x) sh ->
    sealed (fun x => In x (t :: ns) \/ U x) h).
  { intros t sh ns T S I. eapply sealed_ext; [|eapply sealed_add; [exact S|exact T|]].
    - simpl. intros x. split; intros K; decompose [or] K; auto.
    - eapply shape_in_mono; [|exact I]. simpl. auto. }
  apply (fits_all pat fmt U h
    (fun vis t src ns => sealed (fun x => In x ns \/ U x) h)
    (fun vis i j ns => sealed (fun x => In x ns \/ U x) h /\ opt_in (fun x => In x ns \/ U x) i)
    (fun vis i j ns => sealed (fun x => In x ns \/ U x) h /\ opt_in (fun x => In x ns \/ U x) i)
    (fun vis l ks ns => sealed (fun x => In x ns \/ U x) h
        /\ forall k sp tp, In (k, sp) ks -> oget k l = Some tp -> NoDup (map fst ks) -> In (p_base tp) ns)).
  - intros vis t src tsh ssh [T _] Nv Us P1 P2. apply (Add t tsh []); auto. eapply plain_in; eauto.
  - intros vis t src f g ns [T _] Nv Us _ [S I]. apply (Add t (SArray f) ns); auto.
  - intros vis t src f g ns [T _] Nv Us Q1 Q2 Q3 _ [S I]. apply (Add t (SObject f) ns); auto. split; auto.
    intros x Ex. right. now apply Q3.
  - intros. split; auto. intros x Ex. discriminate.
  - intros vis i Ui. split; auto. intros x Ex. right. congruence.
  - intros vis i j ns F S. split; auto. intros x Ex. left. replace x with i by congruence. eapply fits_head; eauto.
  - intros. split; auto. intros x Ex. discriminate.
  - intros vis i Ui. split; auto. intros x Ex. right. congruence.
  - intros vis m sm l ks ns G1 G2 Us ND Q NDl _ [S B]. split; [|intros x Ex; left; left; congruence].
    eapply sealed_ext; [|eapply sealed_add_props; [exact S|exact G1|]].
    + simpl. intros x. split; intros K; decompose [or] K; auto.
    + apply Forall_forall. intros [k p] Ip. simpl. destruct (Q _ _ Ip) as [(sp & Ek)|?]; auto.
      right. left. eapply B; [apply oget_In; exact Ek|now apply in_oget|auto].
  - intros. split; auto.
  - intros vis l k sp ks ns E _ [S B]. split; auto. intros k' sp' tp [I|I] E' ND.
    + injection I as <- <-. congruence.
    + inversion ND; subst. eapply B; eauto.
  - intros vis l k sp tp ks ns1 ns2 E F S1 _ [S B]. split.
    + eapply sealed_ext; [|apply sealed_or; [exact S1|exact S]]. simpl. intros x. rewrite in_app_iff. tauto.
    + intros k' sp' tp' [I|I] E' ND; apply in_or_app.
      * injection I as <- <-. replace tp' with tp by congruence. left. eapply fits_head; eauto.
      * right. inversion ND; subst. eapply B; eauto.
Qed.

Definition meets (s s' : st) (t src : addr) : Prop :=
  forall O v, oracle_wf O -> value_wf v -> (valid O (heap s') t v <-> valid O (heap s) t v /\ valid O (heap s) src v).

(** An open object stays one. *)
Definition keeps_open (s s' : st) (t : addr) : Prop :=
  forall f, shape_at (heap s) t (SObject f) ->
    exists f', shape_at (heap s') t (SObject f') /\ o_addl f' <> Some false /\ o_pprops f' = None.

Lemma open_agree h h' vis ns ns' : open_objects h ns -> agree_on h h' vis ns' -> (forall x, In x ns' -> In x ns) -> open_objects h' ns'.
Proof.
  intros Op (A & _) I x f Ix (b & G & Sh). apply (Op x f); auto. exists b. split; auto. rewrite <- (proj1 (A x Ix)). auto.
Qed.

Section Step.
Variable rec : addr -> addr -> M addr.
Hypothesis Hrec : forall vis t src ns s r s', fits (heap s) vis t src ns -> ready s vis ns ->
  rec t src s = (Ok r, s') -> derived U s s' t src ns.
Hypothesis Hmeet : forall vis t src ns s r s', fits (heap s) vis t src ns -> ready s vis ns -> open_objects (heap s) ns ->
  rec t src s = (Ok r, s') -> meets s s' t src.

Lemma entries_meet m sm ks l vis : U sm -> ~ U m -> (forall x, In x vis -> U x) -> NoDup (map fst ks) ->
  forall rest n i s ns cur u s',
  skipn i ks = rest -> entries_fit pat fmt U (heap s) vis l rest ns -> ready s vis ns -> open_objects (heap s) ns -> ~ In m ns ->
  get_props (heap s) sm = Some ks -> get_props (heap s) m = Some cur ->
  NoDup (map fst rest) -> (forall k, In k (map fst rest) -> oget k cur = oget k l) ->
  loop_props n sm i (map_body rec m) s = (Ok u, s') ->
  forall k sp tp, In (k, sp) rest -> oget k l = Some tp -> meets s s' (p_base tp) (p_base sp).
Proof.
  intros Usm Num Uvis NDks. induction rest as [|[k sp] rest IH]; intros n i s ns cur u s' Sk Ft Rd Op Nm Gs Gm ND Cur H.
  - contradiction.
  - destruct n as [|n]; [discriminate|]. simpl in H. rewrite (bind_ok _ _ _ _ _ (rd_some _ _ _ _ Gs)) in H.
    destruct (skipn_step _ _ _ _ Sk) as [E Sk']. rewrite E in H.
    apply bind_inv in H. destruct H as ([] & s1 & H1 & H).
    unfold map_body in H1. rewrite (bind_ok _ _ _ _ _ (rd_some _ _ _ _ Gm)) in H1.
    inversion ND as [|? ? Nk ND']; subst. simpl in *.
    pose proof (Cur k (or_introl eq_refl)) as Ck. pose proof Rd as Rd0.
    destruct Rd as (NDn & Dis & SU & _).
    assert (Usp : forall k' sp', In (k', sp') ks -> U (p_base sp')).
    { intros k' sp' I. pose proof (sl_props _ _ SU _ _ Usm Gs) as F. unfold props_in in F. rewrite Forall_forall in F. apply (F _ I). }
    assert (Inks : forall x, In x (skipn (S i) ks) -> In x ks).
    { intros x I. rewrite <- (firstn_skipn (S i) ks). apply in_or_app. auto. }
    inversion Ft as [|? ? ? ? ? ? El Fr|? ? ? ? tp ? ns1 ns2 El F1 F2]; subst.
    + (* new property *)
      rewrite El in Ck. rewrite Ck in H1. destruct (props_set_eff _ _ _ _ _ _ _ Gm H1) as (Gm1 & Fr1 & B1).
      rewrite (oset_fresh _ _ _ Ck) in Gm1.
      assert (Ag : agree_on (heap s) (heap s1) vis ns).
      { split; [|split].
        - intros x Ix. split; [apply B1|]. apply (fo_props _ _ _ Fr1). congruence.
        - intros x _ _. apply B1.
        - intros x Ux. apply (fo_props _ _ _ Fr1). congruence. }
      assert (Um : forall x, U x -> x <> m) by (intros x Ux ->; contradiction).
      assert (Fit1 : entries_fit pat fmt U (heap s1) vis l (skipn (S i) ks) ns).
      { destruct (fits_agree_all pat fmt U (heap s) (heap s1)) as (_ & _ & _ & K). apply K; auto. }
      pose proof (sealed_frame _ _ _ _ Um Fr1 SU) as SU1.
      intros k' sp' tp' [I|I] E'; [injection I as <- <-; congruence|].
      assert (M : meets s1 s' (p_base tp') (p_base sp')).
      { apply (IH n (S i) s1 ns (cur ++ [(k, sp)]) u s' eq_refl Fit1) with (k := k'); auto.
        * split; auto. 
        * eapply open_agree; eauto.
        * rewrite (fo_props _ _ _ Fr1); auto.
        * intros k2 I'. rewrite oget_app'. rewrite (Cur k2) by auto. simpl.
          destruct (String.eqb_spec k2 k) as [->|N]; [contradiction|]. now destruct (oget k2 l). }
      destruct (fits_sealed_all (heap s) SU) as (_ & _ & _ & K). destruct (K _ _ _ _ Fr) as [S B].
      pose proof (B _ _ _ I E' ND') as Ib.
      assert (Dm : forall x, In x ns \/ U x -> x <> m) by (intros x [Ix|Ux] ->; contradiction).
      intros O v HO Hv. rewrite (M O v HO Hv).
      rewrite (valid_frame _ _ O s s1 (p_base tp') v S Dm Fr1) by auto.
      rewrite (valid_frame U _ O s s1 (p_base sp') v SU Um Fr1) by eauto. tauto.
    + (* property of both *)
      rewrite Ck, El in H1.
      destruct (p_req sp && negb (p_req tp)) eqn:Rq; [discriminate|].
      apply bind_inv in H1. destruct H1 as (r1 & s1' & H1 & H1'). injection H1' as <-.
      destruct (nodup_app _ _ NDn) as (ND1 & ND2 & Dj).
      assert (Rd1 : ready s vis ns1).
      { split; auto. split; auto. intros x I. apply Dis. apply in_or_app; auto. }
      destruct (Hrec _ _ _ _ _ _ _ F1 Rd1 H1) as (Fr1 & S1 & V1).
      assert (Op1 : open_objects (heap s) ns1) by (intros x f Ix; apply Op; apply in_or_app; auto).
      pose proof (Hmeet _ _ _ _ _ _ _ F1 Rd1 Op1 H1) as M1.
      assert (DU : forall x, U x -> ~ In x ns1) by (intros x Ux I; apply (Dis x); [apply in_or_app|]; auto).
      assert (Ag : agree_on (heap s) (heap s1') vis ns2).
      { split; [|split].
        - intros x Ix. assert (~ In x ns1) by (intros I; apply (Dj x I Ix)).
          split; [apply (fo_base _ _ _ Fr1)|apply (fo_props _ _ _ Fr1)]; auto.
        - intros x Ux _. apply (fo_base _ _ _ Fr1). auto.
        - intros x Ux. apply (fo_props _ _ _ Fr1). auto. }
      assert (Nm1 : ~ In m ns1) by (intros I; apply Nm; apply in_or_app; auto).
      assert (Nm2 : ~ In m ns2) by (intros I; apply Nm; apply in_or_app; auto).
      pose proof (sealed_frame _ _ _ _ DU Fr1 SU) as SU1.
      assert (Fit1 : entries_fit pat fmt U (heap s1') vis l (skipn (S i) ks) ns2).
      { destruct (fits_agree_all pat fmt U (heap s) (heap s1')) as (_ & _ & _ & K). apply K; auto. }
      assert (Rd2 : ready s1' vis ns2).
      { split; auto. split; [intros x I; apply Dis; apply in_or_app; auto|]. split; auto. }
      assert (Gs1 : get_props (heap s1') sm = Some ks) by (rewrite (fo_props _ _ _ Fr1); auto).
      assert (Gm1 : get_props (heap s1') m = Some cur) by (rewrite (fo_props _ _ _ Fr1); auto).
      destruct (entries_run pat fmt U rec Hrec m sm ks l vis Usm Num Uvis NDks (skipn (S i) ks) n (S i) s1' ns2 cur u s' eq_refl)
        as (R1 & R2 & R3 & R4); auto.
      assert (Dd : forall x, In x ns1 \/ U x -> ~ (x = m \/ In x ns2)).
      { intros x [I|Ux] [->|I2]; auto; [apply (Dj x I I2)|]. apply (Dis x); auto. apply in_or_app; auto. }
      intros k' sp' tp' [I|I] E'.
      * injection I as <- <-. rewrite El in E'. injection E' as <-.
        intros O v HO Hv. rewrite <- (M1 O v HO Hv).
        rewrite (valid_frame _ _ O s1' s' (p_base tp) v S1 Dd R2); [tauto|]. left. eapply fits_head; eauto.
      * assert (M : meets s1' s' (p_base tp') (p_base sp')).
        { apply (IH n (S i) s1' ns2 cur u s' eq_refl Fit1) with (k := k'); auto.
          eapply open_agree; [exact Op|exact Ag|]. intros x Ix. apply in_or_app; auto. }
        destruct (fits_sealed_all (heap s) SU) as (_ & _ & _ & K). destruct (K _ _ _ _ F2) as [S B].
        pose proof (B _ _ _ I E' ND') as Ib.
        assert (Dm : forall x, In x ns2 \/ U x -> ~ In x ns1).
        { intros x [Ix|Ux] I1; [apply (Dj x I1 Ix)|]. eapply DU; eauto. }
        intros O v HO Hv. rewrite (M O v HO Hv).
        rewrite (valid_frame _ _ O s s1' (p_base tp') v S Dm Fr1) by auto.
        rewrite (valid_frame U _ O s s1' (p_base sp') v SU DU Fr1) by eauto. tauto.
Qed.

Lemma array_meet m t src f g ns vis s u s' :
  shape_at (heap s) t (SArray f) -> shape_at (heap s) src (SArray g) -> U src ->
  items_fit pat fmt U (heap s) vis (a_items f) (a_items g) ns -> ready s vis (t :: ns) -> open_objects (heap s) ns ->
  inherit_shape m rec t src (SArray f) (SArray g) s = (Ok u, s') -> meets s s' t src.
Proof.
  intros T S Us I (ND & Dis & SU & Uv) Op H. simpl in H. unfold inherit_array in H.
  inversion ND as [|? ? Nt ND']; subst.
  assert (Ts : t <> src). { intros ->. apply (Dis src); auto. now left. }
  assert (Ut : ~ U t) by (apply Dis; now left).
  apply bind_inv in H. destruct H as ([] & sA & HA & H).
  assert (A : exists fa, shape_at (heap sA) t (SArray fa) /\ a_min fa = a_min f /\ a_max fa = a_max f /\ a_uniq fa = a_uniq f
    /\ frame_of (fun x => In x (t :: ns)) s sA
    /\ sealed (fun x => In x ns \/ U x) (heap sA) /\ opt_in (fun x => In x ns \/ U x) (a_items fa)
    /\ forall O l, oracle_wf O -> (forall x, In x l -> value_wf x) ->
         ((forall i x, a_items fa = Some i -> In x l -> valid O (heap sA) i x)
          <-> (forall i x, a_items f = Some i -> In x l -> valid O (heap s) i x)
              /\ (forall j x, a_items g = Some j -> In x l -> valid O (heap s) j x))).
  { assert (Ig : opt_in U (a_items g)). { destruct S as (b & G & Sh). exact (sl_base _ _ SU _ _ _ Us G Sh). }
    destruct (items_inv _ _ _ _ _ _ _ _ I) as [(E1 & ->)|[(i & E1 & E2 & Ui & ->)|(i & j & E1 & E2 & F)]]; rewrite E1 in HA.
    - destruct (upd_arr_eff _ _ _ _ _ _ T HA) as (T1 & F1 & P1). eexists. split; [exact T1|]. simpl.
      split; auto. split; auto. split; auto. split; [eapply frame_of_mono; [|exact F1]; simpl; auto|].
      assert (Fr : frame_of (fun x => x = t) s sA) by exact F1.
      assert (Dt : forall x, U x -> x <> t) by (intros x Ux ->; contradiction).
      split. { eapply sealed_ext; [|eapply sealed_frame; [exact Dt|exact Fr|exact SU]]. simpl. tauto. }
      split. { intros x Ex. right. now apply Ig. }
      intros O l _ _. rewrite E1. split.
      + intros K. split; [discriminate|]. intros j x Ej Ix.
        apply (proj2 (valid_frame U _ O s sA j x SU Dt Fr (Ig _ Ej))). auto.
      + intros [_ K] j x Ej Ix. apply (proj1 (valid_frame U _ O s sA j x SU Dt Fr (Ig _ Ej))). auto.
    - rewrite E2 in HA. injection HA as <-. exists f. split; auto. split; auto. split; auto. split; auto. split; [apply frame_of_refl|].
      split. { eapply sealed_ext; [|exact SU]. simpl. tauto. }
      split; [intros x Ex; right; congruence|]. intros O l _ _. rewrite E2. split; [intros K; split; auto; discriminate|tauto].
    - rewrite E2 in HA. apply bind_inv in HA. destruct HA as (r1 & s1 & HA & HA'). injection HA' as <-.
      assert (Rd : ready s vis ns). { split; auto. split; auto. intros x Ix. apply Dis. now right. }
      destruct (Hrec _ _ _ _ _ _ _ F Rd HA) as (Fr & Sl & V). pose proof (Hmeet _ _ _ _ _ _ _ F Rd Op HA) as M.
      exists f. split; [eapply shape_frame; eauto|]. split; auto. split; auto. split; auto.
      split; [eapply frame_of_mono; [|exact Fr]; simpl; auto|]. split; auto.
      split. { intros x Ex. left. replace x with i by congruence. eapply fits_head; eauto. }
      intros O l HO Wl. rewrite E1, E2. split.
      + intros K. split; intros i' x Ei Ix; injection Ei as <-; apply (proj1 (M O x HO (Wl x Ix)) (K i x eq_refl Ix)).
      + intros [K1 K2] i' x Ei Ix. injection Ei as <-. apply (proj2 (M O x HO (Wl x Ix))). auto. }
  destruct A as (fa & TA & Q1 & Q2 & Q3 & FA & SA & IA & VA).
  assert (NsA : ~ In src (t :: ns)). { intros K. apply (Dis src); auto. }
  rewrite (bind_ok _ _ _ _ _ (cur_arr_ok _ _ _ TA _)) in H.
  rewrite (bind_ok _ _ _ _ _ (cur_arr_ok _ _ _ (shape_frame _ _ _ _ _ FA NsA S) _)) in H.
  apply bind_inv in H. destruct H as (mn & s1 & H1 & H). apply lift_ok in H1. destruct H1 as [E1 ->].
  apply bind_inv in H. destruct H as (mx & s1 & H1 & H). apply lift_ok in H1. destruct H1 as [E2 ->].
  apply bind_inv in H. destruct H as (un & s1 & H1 & H). apply lift_ok in H1. destruct H1 as [E3 ->].
  destruct (upd_arr_eff _ _ _ _ _ _ TA H) as (T2 & F2 & P2). simpl in T2.
  assert (Dt : forall x, In x ns \/ U x -> x <> t) by (intros x [K|K] ->; contradiction).
  rewrite Q1 in E1. rewrite Q2 in E2. rewrite Q3 in E3.
  assert (Wl : forall l, value_wf (GArr l) -> forall x, In x l -> value_wf x).
  { intros l Hv x Ix. inversion Hv; subst; auto. exfalso. match goal with K : forall l, GArr _ <> GArr l |- _ => eapply K; reflexivity end. }
  assert (Fit : forall O i x, a_items fa = Some i -> (valid O (heap sA) i x <-> valid O (heap s') i x)).
  { intros O i x Ei. apply (valid_frame _ _ O sA s' i x SA Dt F2). now apply IA. }
  intros O v HO Hv. rewrite !valid_iff. split.
  - intros (sh & Sh & Acc). pose proof (shape_at_fun _ _ _ _ T2 Sh) as <-. simpl in Acc.
    destruct Acc as (l & -> & A1 & A2 & A3 & A4). simpl in *.
    apply (min_meet _ _ _ _ E1) in A1. apply (max_meet _ _ _ _ E2) in A2.
    assert (K : forall i x, a_items fa = Some i -> In x l -> valid O (heap sA) i x).
    { intros i x Ei Ix. apply Fit; auto. }
    apply VA in K; [|auto|now apply Wl]. destruct K as [K1 K2].
    split; [exists (SArray f)|exists (SArray g)]; (split; [auto|]); exists l; split; auto; split; try tauto; split; try tauto; split; auto;
      intros Eu; apply A4; apply (uniq_meet _ _ _ E3); auto.
  - intros [(sh1 & Sh1 & Acc1) (sh2 & Sh2 & Acc2)].
    pose proof (shape_at_fun _ _ _ _ T Sh1) as <-. pose proof (shape_at_fun _ _ _ _ S Sh2) as <-. simpl in Acc1, Acc2.
    destruct Acc1 as (l & -> & A1 & A2 & A3 & A4). destruct Acc2 as (l' & El & B1 & B2 & B3 & B4). injection El as <-.
    eexists. split; [exact T2|]. simpl. exists l. split; auto.
    split; [apply (min_meet _ _ _ _ E1); auto|]. split; [apply (max_meet _ _ _ _ E2); auto|]. split.
    + intros i x Ei Ix. apply Fit; auto. revert i x Ei Ix. apply VA; auto; now apply Wl.
    + simpl. intros Eu. apply (uniq_meet _ _ _ E3) in Eu. tauto.
Qed.

(** What the properties of the result say. *)
Definition map_meets (s s2 : st) (o2 ot og : option addr) : Prop :=
  (forall ps, props_of (heap s2) o2 ps -> exists l ks, props_of (heap s) ot l /\ props_of (heap s) og ks)
  /\ forall l ks, props_of (heap s) ot l -> props_of (heap s) og ks ->
    props_of (heap s2) o2 (l ++ missing l ks)
    /\ forall k p, oget k (l ++ missing l ks) = Some p ->
       forall O v, oracle_wf O -> value_wf v -> (valid O (heap s2) (p_base p) v <->
         (forall tp, oget k l = Some tp -> valid O (heap s) (p_base tp) v)
         /\ (forall sp, oget k ks = Some sp -> valid O (heap s) (p_base sp) v)).

Lemma props_of_fun h o l l' : props_of h o l -> props_of h o l' -> l = l'.
Proof. intros [[-> ->]|(m & -> & G)] [[E ->]|(m' & E & G')]; congruence. Qed.
Lemma missing_nil ks : missing [] ks = ks.
Proof. unfold missing. induction ks as [|x ks IH]; simpl in *; congruence. Qed.

Lemma object_meet m t src f g ns vis s u s' :
  shape_at (heap s) t (SObject f) -> shape_at (heap s) src (SObject g) -> U src ->
  o_addl g <> Some false -> o_pprops g = None -> o_addl f <> Some false -> o_pprops f = None ->
  props_fit pat fmt U (heap s) vis (o_props f) (o_props g) ns -> ready s vis (t :: ns) -> open_objects (heap s) ns ->
  inherit_shape m rec t src (SObject f) (SObject g) s = (Ok u, s') -> meets s s' t src /\ keeps_open s s' t.
Proof.
  intros T S Us Ad Pg Af Pf I Rd Op H.
  assert (Der : derived U s s' t src (t :: ns)).
  { eapply (object_core pat fmt U rec Hrec) with (vis := vis); eauto. rewrite Pf. discriminate. }
  destruct Der as (_ & _ & Der).
  destruct Rd as (ND & Dis & SU & Uv). simpl in H. unfold inherit_object in H.
  inversion ND as [|? ? Nt ND']; subst.
  assert (Ts : t <> src). { intros ->. apply (Dis src); auto. now left. }
  assert (Ut : ~ U t) by (apply Dis; now left).
  assert (DtU : forall x, U x -> x <> t) by (intros x Ux ->; contradiction).
  assert (Dt : forall x, In x ns \/ U x -> x <> t) by (intros x [K|K] ->; contradiction).
  apply bind_inv in H. destruct H as (mn & s1 & H1 & H). apply lift_ok in H1. destruct H1 as [E1 ->].
  apply bind_inv in H. destruct H as (mx & s1 & H1 & H). apply lift_ok in H1. destruct H1 as [E2 ->].
  apply bind_inv in H. destruct H as ([] & s1 & H1 & H).
  destruct (upd_obj_eff _ _ _ _ _ _ T H1) as (T1 & F1 & P1). simpl in T1.
  pose proof (sealed_frame _ _ _ _ DtU F1 SU) as SU1.
  apply bind_inv in H. destruct H as ([] & s2 & H2 & H).
  set (f1 := ObjF _ _ _ _ _ _ _) in T1.
  assert (Adl : o_addl f1 <> Some false). { simpl. destruct (o_addl f) as [x|]; auto. }
  assert (Ig : opt_in U (o_props g)). { destruct S as (b & G & Sh). exact (proj1 (sl_base _ _ SU _ _ _ Us G Sh)). }
  assert (Ing : forall ks k sp, props_of (heap s) (o_props g) ks -> oget k ks = Some sp -> U (p_base sp)).
  { intros ks k sp Pk Ek. pose proof (props_of_in _ _ _ _ SU Ig Pk) as F. unfold props_in in F. rewrite Forall_forall in F.
    apply (F (k, sp)). now apply oget_In. }
  assert (A : exists f2, shape_at (heap s2) t (SObject f2) /\ o_min f2 = mn /\ o_max f2 = mx /\ o_pprops f2 = None
    /\ o_addl f2 <> Some false
    /\ frame_of (fun x => In x (t :: ns)) s s2 /\ sealed (fun x => In x ns \/ U x) (heap s2)
    /\ opt_in (fun x => In x ns \/ U x) (o_props f2) /\ map_meets s s2 (o_props f2) (o_props f) (o_props g)).
  { destruct (props_inv _ _ _ _ _ _ _ _ I) as [(Q1 & ->)|[(m0 & Q1 & Q2 & Um & ->)|(m0 & sm & l & ks & ns' & Q1 & Q2 & -> & Gl & Gk & Usm & NDk & Own & NDl & EF)]];
      unfold inherit_props in H2; rewrite Q1 in H2.
    - destruct (upd_obj_eff _ _ _ _ _ _ T1 H2) as (T2 & F2 & P2). simpl in T2. eexists. split; [exact T2|]. simpl.
      assert (Fr : frame_of (fun x => x = t) s s2) by (eapply frame_of_trans; eauto).
      split; auto. split; auto. split; auto. split; auto. split; [eapply frame_of_mono; [|exact Fr]; simpl; auto|].
      split. { eapply sealed_ext; [|eapply sealed_frame; [exact DtU|exact F2|exact SU1]]. simpl. tauto. }
      split. { intros x Ex. right. now apply Ig. }
      assert (Ps : forall ps, props_of (heap s2) (o_props g) ps <-> props_of (heap s) (o_props g) ps).
      { intros ps. unfold props_of. split; intros [?|(mm & Em & Gm)]; auto; right; exists mm; split; auto;
          rewrite P2, P1 in *; auto. }
      split; [intros ps K; exists [], ps; split; [left; auto|now apply Ps]|].
      intros l ks Pl Pk. assert (l = []) by (destruct Pl as [[_ ?]|(? & ? & _)]; congruence). subst l. rewrite missing_nil. simpl.
      split; [now apply Ps|]. intros k p Ek O v HO Hv.
      rewrite <- (valid_frame U _ O s s2 (p_base p) v SU DtU Fr) by eauto.
      split; [intros K; split; [discriminate|intros sp Es; replace sp with p by congruence; auto]|intros [_ K]; auto].
    - rewrite Q2 in H2. injection H2 as <-. exists f1. split; auto. simpl. split; auto. split; auto. split; auto. split; auto.
      split; [eapply frame_of_mono; [|exact F1]; simpl; auto|].
      split. { eapply sealed_ext; [|exact SU1]. simpl. tauto. }
      split; [intros x Ex; right; congruence|].
      assert (Ps : forall ps, props_of (heap s1) (o_props f) ps <-> props_of (heap s) (o_props f) ps).
      { intros ps. unfold props_of. split; intros [?|(mm & Em & Gm)]; auto; right; exists mm; split; auto;
          rewrite P1 in *; auto. }
      split; [intros ps K; exists ps, []; split; [now apply Ps|left; auto]|].
      intros l ks Pl Pk. assert (ks = []) by (destruct Pk as [[_ ?]|(? & ? & _)]; congruence). subst ks. simpl. rewrite app_nil_r.
      split; [now apply Ps|]. intros k p Ek O v HO Hv.
      assert (Up : U (p_base p)).
      { assert (Iu : opt_in U (o_props f)) by (intros x Ex; congruence).
        pose proof (props_of_in _ _ _ _ SU Iu Pl) as F. unfold props_in in F. rewrite Forall_forall in F.
        apply (F (k, p)). now apply oget_In. }
      rewrite <- (valid_frame U _ O s s1 (p_base p) v SU DtU F1) by auto.
      split; [intros K; split; [intros tp Et; replace tp with p by congruence; auto|discriminate]|intros [K _]; auto].
    - rewrite Q2 in H2. change (inherit_map m rec m0 sm) with (loop_props m sm 0 (map_body rec m0)) in H2.
      inversion ND' as [|? ? Nm ND'']; subst.
      assert (Num : ~ U m0) by (apply Dis; simpl; auto).
      assert (Nmt : m0 <> t) by (intros ->; apply Nt; now left).
      assert (Rd1 : ready s1 vis ns').
      { split; auto. split; auto. intros x Ix. apply Dis. simpl; auto. }
      assert (Ag : agree_on (heap s) (heap s1) vis ns').
      { split; [|split].
        - intros x Ix. split; [apply (fo_base _ _ _ F1)|apply P1]. intros ->. apply Nt. now right.
        - intros x Ux _. apply (fo_base _ _ _ F1). auto.
        - intros x _. apply P1. }
      assert (EF1 : entries_fit pat fmt U (heap s1) vis l ks ns').
      { destruct (fits_agree_all pat fmt U (heap s) (heap s1)) as (_ & _ & _ & K). apply K; auto. }
      assert (Op1 : open_objects (heap s1) ns'). { eapply open_agree; [exact Op|exact Ag|]. simpl. auto. }
      assert (Gk1 : get_props (heap s1) sm = Some ks) by now rewrite P1.
      assert (Gl1 : get_props (heap s1) m0 = Some l) by now rewrite P1.
      destruct (entries_run pat fmt U rec Hrec m0 sm ks l vis Usm Num Uv NDk ks m 0 s1 ns' l tt s2) as (R1 & R2 & R3 & R4); auto.
      pose proof (entries_meet m0 sm ks l vis Usm Num Uv NDk ks m 0 s1 ns' l tt s2 eq_refl EF1 Rd1 Op1 Nm Gk1 Gl1 NDk (fun _ _ => eq_refl) H2) as M.
      assert (R2t : ~ (t = m0 \/ In t ns')). { intros [->|K]; apply Nt; simpl; auto. }
      exists f1. split; [eapply shape_frame; [exact R2|exact R2t|exact T1]|]. simpl. split; auto. split; auto. split; auto. split; auto.
      split. { eapply frame_of_trans; [eapply frame_of_mono; [|exact F1]|eapply frame_of_mono; [|exact R2]]; simpl; intuition. }
      destruct (fits_sealed_all (heap s) SU) as (_ & _ & _ & SE). destruct (SE _ _ _ _ EF) as [Se Be].
      assert (Fl : forall k p, In (k, p) l -> In (p_base p) ns' \/ U (p_base p)).
      { intros k p Ip. destruct (Own _ _ Ip) as [(sp & Ek)|?]; auto. left.
        eapply Be; [apply oget_In; exact Ek|now apply in_oget|auto]. }
      split.
      { eapply sealed_ext; [|eapply sealed_add_props; [exact R3|exact R1|]].
        - simpl. intros x. split; intros K; decompose [or] K; auto.
        - apply Forall_forall. intros [k p] Ip. simpl. apply in_app_or in Ip. destruct Ip as [Ip|Ip]; [right; eauto|].
          unfold missing in Ip. apply filter_In in Ip. destruct Ip as [Ip _]. right. right.
          apply (Ing ks k); [right; eauto|now apply in_oget]. }
      split. { intros x Ex. left. rewrite Q1 in Ex. injection Ex as <-. now left. }
      split; [intros ps _; exists l, ks; split; right; eauto|].
      intros l' ks' Pl Pk.
      assert (l' = l) by (eapply props_of_fun; [exact Pl|right; eauto]).
      assert (ks' = ks) by (eapply props_of_fun; [exact Pk|right; eauto]). subst l' ks'.
      split; [right; exists m0; auto|]. intros k p Ek O v HO Hv. rewrite oget_app' in Ek.
      assert (Fr : frame_of (fun x => x = t \/ x = m0 \/ In x ns') s s2).
      { eapply frame_of_trans; [eapply frame_of_mono; [|exact F1]|eapply frame_of_mono; [|exact R2]]; simpl; intuition. }
      assert (DU : forall x, U x -> ~ (x = t \/ x = m0 \/ In x ns')).
      { intros x Ux [->|[->|K]]; auto. apply (Dis x); simpl; auto. }
      destruct (oget k l) as [tp|] eqn:El.
      + injection Ek as <-. destruct (oget k ks) as [sp|] eqn:Eks.
        * rewrite (M k sp tp (oget_In _ _ _ Eks) El O v HO Hv).
          assert (Db : forall x, In x ns' \/ U x -> x <> t) by (intros x [Ix|Ux] ->; [apply Nt; now right|contradiction]).
          rewrite <- (valid_frame _ _ O s s1 (p_base tp) v Se Db F1).
          2:{ left. eapply Be; [apply oget_In; exact Eks|exact El|auto]. }
          rewrite <- (valid_frame U _ O s s1 (p_base sp) v SU DtU F1) by eauto.
          split; [intros [K1 K2]; split; intros ? E; injection E as <-; auto|intros [K1 K2]; auto].
        * destruct (Own k tp (oget_In _ _ _ El)) as [(sp & Es)|Up]; [congruence|].
          rewrite <- (valid_frame U _ O s s2 (p_base tp) v SU DU Fr Up).
          split; [intros K1; split; intros ? E; [injection E as <-; auto|discriminate]|intros [K1 _]; auto].
      + rewrite oget_missing in Ek by auto. rewrite <- (valid_frame U _ O s s2 (p_base p) v SU DU Fr) by eauto.
        split; [intros K1; split; [discriminate|intros sp E; replace sp with p by congruence; auto]|intros [_ K1]; auto]. }
  destruct A as (f2 & T2 & M1 & M2 & M3 & M4 & FA & SA & IA & NA1 & NA).
  assert (NsA : ~ In src (t :: ns)). { intros K. apply (Dis src); auto. }
  rewrite (bind_ok _ _ _ _ _ (cur_obj_ok _ _ _ T2 _)) in H.
  rewrite (bind_ok _ _ _ _ _ (cur_obj_ok _ _ _ (shape_frame _ _ _ _ _ FA NsA S) _)) in H.
  rewrite Pg in H. unfold inherit_pprops in H. rewrite M3 in H.
  destruct (upd_obj_eff _ _ _ _ _ _ T2 H) as (T3 & F3 & P3). unfold set_pprops in T3.
  assert (Ps : forall ps, props_of (heap s') (o_props f2) ps <-> props_of (heap s2) (o_props f2) ps).
  { intros ps. unfold props_of. split; intros [?|(mm & Em & Gm)]; auto; right; exists mm; split; auto;
      rewrite P3 in *; auto. }
  assert (Fit : forall O ps k p x, props_of (heap s2) (o_props f2) ps -> oget k ps = Some p ->
    (valid O (heap s2) (p_base p) x <-> valid O (heap s') (p_base p) x)).
  { intros O ps k p x Pp Ep. apply (valid_frame _ _ O s2 s' (p_base p) x SA Dt F3).
    pose proof (props_of_in _ _ _ _ SA IA Pp) as F. unfold props_in in F. rewrite Forall_forall in F.
    apply (F (k, p)). now apply oget_In. }
  assert (Wl : forall kvs, value_wf (GMap kvs) -> forall k x, In (k, x) kvs -> value_wf x).
  { intros l Hv k x Ix. inversion Hv; subst; eauto. exfalso. match goal with K : forall l, GMap _ <> GMap l |- _ => eapply K; reflexivity end. }
  split; [|intros f0 _; eexists; split; [exact T3|simpl; auto]].
  intros O v HO Hv. split.
  - intros V. split; [|now apply Der]. apply valid_iff in V. destruct V as (sh & Sh & Acc).
    pose proof (shape_at_fun _ _ _ _ T3 Sh) as <-. simpl in Acc.
    destruct Acc as (kvs & ps & pps & -> & A0 & A00 & A1 & A2 & A3 & A4 & A5). simpl in *. rewrite M1 in A1. rewrite M2 in A2.
    apply Ps in A0. destruct (NA1 _ A0) as (l & ks & Pl & Pk). destruct (NA l ks Pl Pk) as [Pr Me].
    pose proof (props_of_fun _ _ _ _ A0 Pr) as ->.
    apply valid_iff. exists (SObject f). split; auto. simpl. exists kvs, l, []. split; auto. split; auto. split; [left; auto|].
    split; [now apply (min_meet _ _ _ _ E1) in A1|]. split; [now apply (max_meet _ _ _ _ E2) in A2|]. split; [|split].
    + intros k p Ip Rq. apply (A3 k p); auto. apply in_or_app. auto.
    + intros k x p Ik Ek. assert (Ek' : oget k (l ++ missing l ks) = Some p) by now rewrite oget_app', Ek.
      pose proof (A4 k x p Ik Ek') as Vx. apply (proj2 (Fit O _ _ _ x Pr Ek')) in Vx.
      exact (proj1 (proj1 (Me k p Ek' O x HO (Wl _ Hv _ _ Ik)) Vx) p Ek).
    + intros k x Ik Ek. split; auto. left. intros k1 p1 [].
  - intros [V1 V2]. apply valid_iff in V1. apply valid_iff in V2. apply valid_iff.
    destruct V1 as (sh1 & Sh1 & Acc1). destruct V2 as (sh2 & Sh2 & Acc2).
    pose proof (shape_at_fun _ _ _ _ T Sh1) as <-. pose proof (shape_at_fun _ _ _ _ S Sh2) as <-. simpl in Acc1, Acc2.
    destruct Acc1 as (kvs & l & pps & -> & A0 & A00 & A1 & A2 & A3 & A4 & A5).
    destruct Acc2 as (kvs' & ks & pps' & Ev & B0 & B00 & B1 & B2 & B3 & B4 & B5). injection Ev as <-.
    destruct (NA l ks A0 B0) as [Pr Me].
    eexists. split; [exact T3|]. simpl. exists kvs, (l ++ missing l ks), []. split; auto. split; [now apply Ps|].
    split; [left; auto|]. rewrite M1, M2.
    split; [apply (min_meet _ _ _ _ E1); auto|]. split; [apply (max_meet _ _ _ _ E2); auto|]. split; [|split].
    + intros k p Ip Rq. apply in_app_or in Ip. destruct Ip as [Ip|Ip]; [eauto|].
      unfold missing in Ip. apply filter_In in Ip. destruct Ip as [Ip _]. eauto.
    + intros k x p Ik Ek. apply (proj1 (Fit O _ _ _ x Pr Ek)). apply (proj2 (Me k p Ek O x HO (Wl _ Hv _ _ Ik))). split; eauto.
    + intros k x Ik Ek. split; auto. left. intros k1 p1 [].
Qed.
End Step.

Theorem inherit_meets n : forall vis t src ns s r s',
  fits (heap s) vis t src ns -> ready s vis ns -> open_objects (heap s) ns ->
  inherit n t src s = (Ok r, s') -> meets s s' t src /\ keeps_open s s' t.
Proof.
  induction n as [|n IH]; intros vis t src ns s r s' F Rd Op H; [discriminate|].
  pose proof (inherit_derives pat fmt U n) as Dv.
  assert (IH' : forall vis t src ns s r s', fits (heap s) vis t src ns -> ready s vis ns -> open_objects (heap s) ns ->
    inherit n t src s = (Ok r, s') -> meets s s' t src) by (intros; eapply IH; eauto).
  pose proof (fits_head _ _ _ _ _ _ _ _ F) as Ht. pose proof (fits_src _ _ _ _ _ _ _ _ F) as Us.
  destruct Rd as (ND & Dis & SU & Uv).
  assert (Nsrc : ~ In src ns) by (intros K; apply (Dis src); auto).
  assert (Ts : t <> src) by (intros ->; contradiction).
  assert (Nd : exists tsh ssh, node (heap s) t src tsh ssh /\ simple_pair tsh ssh
    /\ forall s1 s2, agree_on (heap s) (heap s1) (src :: vis) (tl ns) ->
         shape_at (heap s1) t tsh -> shape_at (heap s1) src ssh -> sealed U (heap s1) ->
         inherit_shape n (inherit n) t src tsh ssh s1 = (Ok tt, s2) -> (meets s1 s2 t src /\ keeps_open s1 s2 t) /\ derived U s1 s2 t src ns).
  { assert (Uv' : forall x, In x (src :: vis) -> U x) by (intros x [<-|K]; auto).
    inversion F as [? ? ? tsh ssh Nd Nv _ P1 P2|? ? ? f g ns' Nd Nv _ Ft|? ? ? f g ns' Nd Nv _ Ad Pg Pf Ft]; subst.
    - exists tsh, ssh. split; auto. split.
      { destruct tsh, ssh; simpl in P1, P2; try contradiction; repeat split; discriminate. }
      intros s1 s2 _ T S SU1 Run.
      destruct (scalar_core pat fmt _ _ _ _ _ _ _ _ _ T S P1 P2 Run) as (Fr & P & sh & E & Pl & b & G & G').
      destruct (plain_inherit _ _ _ _ _ P1 P2 E) as [_ K].
      assert (T' : shape_at (heap s2) t sh) by (eexists; split; [exact G'|reflexivity]).
      assert (M : meets s1 s2 t src).
      { intros O v HO Hv. rewrite (plain_valid pat fmt O _ _ _ v Pl T'), (plain_valid pat fmt O _ _ _ v P1 T), (plain_valid pat fmt O _ _ _ v P2 S).
        apply K; auto using value_leaf. }
      split; [split; auto; intros f T0; pose proof (shape_at_fun _ _ _ _ T T0); subst tsh; contradiction|]. split; [|split].
      + eapply frame_of_mono; [|exact Fr]. simpl. auto.
      + assert (Dt : forall x, U x -> x <> t) by (intros x Ux ->; apply (Dis t); simpl; auto).
        eapply sealed_ext; [|apply (sealed_add U _ t sh); [eapply sealed_frame; [exact Dt|exact Fr|exact SU1]|auto|]].
        * simpl. intros x. intuition.
        * eapply plain_in; eauto.
      + intros O v HO Hv V. now apply (M O v HO Hv).
    - exists (SArray f), (SArray g). split; auto. split; [repeat split; discriminate|].
      intros s1 s2 Ag T S SU1 Run. simpl in Ag.
      assert (Ft1 : items_fit pat fmt U (heap s1) (src :: vis) (a_items f) (a_items g) ns').
      { destruct (fits_agree_all pat fmt U (heap s) (heap s1)) as (_ & K & _ & _). apply K; auto. }
      split; [split; [eapply (array_meet (inherit n) Dv IH') with (vis := src :: vis)|intros f0 T0; pose proof (shape_at_fun _ _ _ _ T T0); discriminate]|eapply (array_core pat fmt U (inherit n) Dv) with (vis := src :: vis)];
        eauto; try (split; auto; fail). eapply open_agree; [exact Op|exact Ag|]. now right.
    - exists (SObject f), (SObject g). split; auto. split; [repeat split; discriminate|].
      intros s1 s2 Ag T S SU1 Run. simpl in Ag.
      assert (Ft1 : props_fit pat fmt U (heap s1) (src :: vis) (o_props f) (o_props g) ns').
      { destruct (fits_agree_all pat fmt U (heap s) (heap s1)) as (_ & _ & K & _). apply K; auto. }
      destruct (Op t f Ht (proj1 Nd)) as [Of Pp].
      split; [eapply (object_meet (inherit n) Dv IH') with (vis := src :: vis)|eapply (object_core pat fmt U (inherit n) Dv) with (vis := src :: vis)];
        eauto; try (split; auto; fail). eapply open_agree; [exact Op|exact Ag|]. now right. }
  destruct Nd as (tsh & ssh & ((tb & Gt & St) & sb & Gs & Ss & V) & SP & Core).
  destruct (inherit_opened _ _ _ _ _ _ _ _ _ _ H Gt Gs Ts St Ss V SP)
    as (m & s1 & s2 & Em & -> & F1 & P1 & S1 & (d & T1) & Run & F3 & P3 & sb2 & S2 & S3).
  injection Em as <-.
  assert (Sh1 : forall a sh, shape_at (heap s) a sh <-> shape_at (heap s1) a sh).
  { intros a sh. destruct (Nat.eq_dec a t) as [->|Nt].
    - split; intros (b & G & Q); [rewrite Gt in G|rewrite T1 in G]; injection G as <-; [exists (set_desc d tb)|exists tb]; auto.
    - destruct (Nat.eq_dec a src) as [->|Ns].
      + split; intros (b & G & Q); [rewrite Gs in G|rewrite S1 in G]; injection G as <-; [exists (set_visited true sb)|exists sb]; auto.
      + unfold shape_at. rewrite (fo_base _ _ _ F1) by tauto. tauto. }
  assert (SU1 : sealed U (heap s1)).
  { eapply shapes_sealed; [intros a sh; apply Sh1|exact P1|apply (fo_slice _ _ _ F1)|exact SU]. }
  assert (Ag : agree_on (heap s) (heap s1) (src :: vis) (tl ns)).
  { split; [|split].
    - intros x Ix. split; [|apply P1]. apply (fo_base _ _ _ F1). intros [->| ->].
      + inversion F; subst; simpl in Ix; try contradiction; inversion ND; contradiction.
      + apply Nsrc. destruct ns; simpl in *; auto.
    - intros x Ux Nx. apply (fo_base _ _ _ F1). intros [->| ->]; [apply (Dis t); auto|apply Nx; now left].
    - intros x _. apply P1. }
  destruct (Core s1 s2 Ag) as ((M & KO) & Fr & Sl & Vl); auto.
  { apply Sh1. exists tb; auto. } { apply Sh1. exists sb; auto. }
  assert (Sh3 : forall a sh, shape_at (heap s2) a sh <-> shape_at (heap s') a sh).
  { intros a sh. destruct (Nat.eq_dec a src) as [->|Ns].
    - split; intros (b & G & Q); [rewrite S2 in G|rewrite S3 in G]; injection G as <-; [exists (set_visited false sb2)|exists sb2]; auto.
    - unfold shape_at. rewrite (fo_base _ _ _ F3) by auto. tauto. }
  assert (E1 : forall O a v, valid O (heap s) a v <-> valid O (heap s1) a v).
  { intros O a v. split; (eapply shapes_valid; [intros ? ?; apply Sh1|intros x|intros x]);
      try apply P1; try apply (fo_slice _ _ _ F1); symmetry; [apply P1|apply (fo_slice _ _ _ F1)]. }
  assert (E3 : forall O a v, valid O (heap s2) a v <-> valid O (heap s') a v).
  { intros O a v. split; (eapply shapes_valid; [intros ? ?; apply Sh3|intros x|intros x]);
      try apply P3; try apply (fo_slice _ _ _ F3); symmetry; [apply P3|apply (fo_slice _ _ _ F3)]. }
  split; [intros O v HO Hv; rewrite <- E3, (M O v HO Hv), <- !E1; tauto|].
  intros f T0. destruct (KO f) as (f' & T' & K); [now apply Sh1|]. exists f'. split; auto. now apply Sh3.
Qed.
End Meet.

Theorem joined_meet pat fmt n t ps s s' : joined pat fmt n t ps s s' ->
  forall O v, oracle_wf O -> value_wf v ->
  (valid O (heap s') t v <-> valid O (heap s) t v /\ forall p, In p ps -> valid O (heap s) p v).
Proof.
  induction 1 as [s|U ns p ps s s1 s' F ND Dis SU Op Later H J IH]; intros O v HO Hv.
  - split; [intros V; split; auto; contradiction|tauto].
  - assert (Rd : ready U s [] ns) by (split; auto; split; auto; split; auto; contradiction).
    destruct (inherit_derives pat fmt U n [] t p ns s t s1 F Rd H) as (Fr & _ & _).
    destruct (inherit_meets pat fmt U n [] t p ns s t s1 F Rd Op H) as [M _].
    assert (DU : forall x, U x -> ~ In x ns) by (intros x Ux I; eapply Dis; eauto).
    rewrite (IH O v HO Hv), (M O v HO Hv). split.
    + intros [[V1 V2] V3]. split; auto. intros q [<-|I]; auto.
      apply (proj2 (valid_frame U _ O s s1 q v SU DU Fr (Later q I))); auto.
    + intros [V1 V2]. split; [split; auto; apply V2; now left|]. intros q I.
      apply (proj1 (valid_frame U _ O s s1 q v SU DU Fr (Later q I))). apply V2. now right.
Qed.

(** * Two parents *)

Lemma bare_valid O h h' a f v : shape_at h a (SObject f) -> shape_at h' a (SObject f) -> o_props f = None -> o_pprops f = None ->
  valid O h a v -> valid O h' a v.
Proof.
  intros S S' P Q V. apply valid_iff in V. destruct V as (sh & Sh & Acc). pose proof (shape_at_fun _ _ _ _ S Sh) as <-.
  apply valid_iff. exists (SObject f). split; auto. simpl in *.
  destruct Acc as (kvs & ps & pps & -> & A0 & A00 & A1 & A2 & A3 & A4 & A5).
  assert (ps = []) by (destruct A0 as [[_ ?]|(? & ? & _)]; congruence).
  assert (pps = []) by (destruct A00 as [[_ ?]|(? & ? & _)]; congruence). subst ps pps.
  exists kvs, [], []. split; auto. split; [left; auto|]. split; [left; auto|]. split; auto. split; auto. split; auto.
  split; [discriminate|]. intros k x Ik Ek. destruct (A5 k x Ik Ek) as [A6 _]. split; auto. left. intros k1 p1 [].
Qed.

(** Nothing in [D] has changed. *)
Record still (D : addr -> Prop) (h h' : list cell) : Prop := {
  st_base : forall x, D x -> get_base h' x = get_base h x;
  st_props : forall x, D x -> get_props h' x = get_props h x;
  st_slice : forall x, D x -> get_slice h' x = get_slice h x
}.
Lemma still_sealed D h h' : still D h h' -> sealed D h -> sealed D h'.
Proof. intros [A B C] [S1 S2 S3]. split; intros; [rewrite A in *|rewrite B in *|rewrite C in *]; eauto. Qed.
Lemma still_valid D O h h' : still D h h' -> sealed D h -> forall a v, D a -> (valid O h a v <-> valid O h' a v).
Proof.
  intros St S a v Da. pose proof (still_sealed _ _ _ St S) as S'. destruct St as [A B C]. split.
  - apply (valid_region D); auto.
    + intros x sh Dx (b & G & Sh). exists b. rewrite A; auto.
    + intros m l Dm G. rewrite B; auto.
    + intros m l Dm G. rewrite C; auto.
  - apply (valid_region D); auto.
    + intros x sh Dx (b & G & Sh). exists b. rewrite <- A; auto.
    + intros m l Dm G. rewrite <- B; auto.
    + intros m l Dm G. rewrite <- C; auto.
Qed.
Lemma still_trans D h h1 h2 : still D h h1 -> still D h1 h2 -> still D h h2.
Proof. intros [A B C] [A' B' C']. split; intros x Dx; [rewrite A', A|rewrite B', B|rewrite C', C]; auto. Qed.

Lemma unwrap_finished n p pb s r s' : get_base (heap s) p = Some pb -> b_unwrapped pb = true -> unwrap n p s = (Ok r, s') -> r = p /\ s' = s.
Proof.
  intros G Un H. destruct n; [discriminate|]. cbn [unwrap] in H.
  rewrite (bind_ok _ _ _ _ _ (rd_some _ _ _ _ G)), Un in H. destruct (b_shape pb); [|discriminate]. injection H as <- <-. auto.
Qed.

Theorem two_parents pat fmt (U : addr -> Prop) n a s s' b f p q pb qb fp ns :
  get_base (heap s) a = Some b -> b_unwrapped b = false -> b_alias b = None -> b_link b = None ->
  b_shape b = Some (SObject f) -> o_props f = None -> o_pprops f = None -> o_addl f <> Some false ->
  get_props (heap s) (b_fdefs b) = Some [] -> get_slice (heap s) (b_inherits b) = Some [p; q] ->
  get_base (heap s) p = Some pb -> b_unwrapped pb = true -> b_shape pb = Some (SObject fp) ->
  get_base (heap s) q = Some qb -> b_unwrapped qb = true ->
  fits pat fmt U (heap s) [] p q ns -> NoDup ns -> (forall x, In x ns -> ~ U x) -> sealed U (heap s) ->
  open_objects (heap s) ns ->
  (forall x, In x [a; b_inherits b; b_fdefs b] -> ~ In x ns) -> ~ U a -> ~ U (b_inherits b) ->
  unwrap n a s = (Ok a, s') ->
  forall O v, oracle_wf O -> value_wf v ->
    (valid O (heap s') a v <-> valid O (heap s) a v /\ valid O (heap s) p v /\ valid O (heap s) q v).
Proof.
  intros G Un Al Lk Sh Pf Qf Af Fd Sl Gp Up Sp Gq Uq F ND Dis SU Op Apart NUa NUi H.
  assert (Na : ~ In a ns) by (apply Apart; simpl; auto).
  assert (Ni : ~ In (b_inherits b) ns) by (apply Apart; simpl; auto).
  assert (Nf : ~ In (b_fdefs b) ns) by (apply Apart; simpl; auto).
  pose proof (fits_head _ _ _ _ _ _ _ _ F) as Hp. pose proof (fits_src _ _ _ _ _ _ _ _ F) as Hq.
  assert (Nap : a <> p) by (intros ->; contradiction). assert (Naq : a <> q) by (intros ->; contradiction).
  destruct n as [|n]; [discriminate|]. cbn [unwrap] in H.
  rewrite (bind_ok _ _ _ _ _ (rd_some _ _ _ _ G)), Sh, Un, Al in H.
  apply bind_inv in H. destruct H as ([] & s1 & H1 & H). apply upd_base_eff in H1. destruct H1 as (b' & G' & B1 & F1 & P1).
  rewrite G in G'. injection G' as <-.
  assert (G1 : get_base (heap s1) a = Some (set_unwrapped true b)) by (rewrite B1, Nat.eqb_refl; auto).
  assert (K1 : forall x, x <> a -> get_base (heap s1) x = get_base (heap s) x) by (intros; apply (fo_base _ _ _ F1); auto).
  apply bind_inv in H. destruct H as (src & s5 & H2 & H).
  unfold unwrap_parents in H2. rewrite (bind_ok _ _ _ _ _ (rd_some _ _ _ _ G1)) in H2. simpl in H2. rewrite Lk in H2.
  assert (Sl1 : get_slice (heap s1) (b_inherits b) = Some [p; q]) by (rewrite (fo_slice _ _ _ F1); auto).
  rewrite (bind_ok _ _ _ _ _ (rd_some _ _ _ _ Sl1)) in H2.
  apply bind_inv in H2. destruct H2 as (ss & s2 & H3 & H2).
  destruct (unwrap_finished n p pb s1 ss s2) as [-> ->]; auto. { rewrite K1; auto. }
  apply bind_inv in H2. destruct H2 as ([] & s2 & H4 & H2).
  destruct (slice_set_eff _ _ _ _ _ _ H4) as (l' & Gl' & Gl2 & B2 & P2 & L2). rewrite Sl1 in Gl'. injection Gl' as <-. simpl in Gl2.
  apply bind_inv in H2. destruct H2 as ([] & s3 & H5 & H2). injection H2 as <- <-.
  destruct n as [|k]; [discriminate|]. cbn [unwrap_more_parents] in H5.
  rewrite (bind_ok _ _ _ _ _ (rd_some _ _ _ _ Gl2)) in H5. cbn [nth_error] in H5.
  apply bind_inv in H5. destruct H5 as (us & s2' & H6 & H5).
  destruct (unwrap_finished (S k) q qb s2 us s2') as [-> ->]; auto. { rewrite B2, K1; auto. }
  apply bind_inv in H5. destruct H5 as (us' & s4 & H7 & H5).
  assert (Base2 : forall x, x <> a -> get_base (heap s2) x = get_base (heap s) x) by (intros; rewrite B2, K1; auto).
  assert (Props2 : forall x, get_props (heap s2) x = get_props (heap s) x) by (intros; rewrite P2, P1; auto).
  assert (Slice2 : forall x, x <> b_inherits b -> get_slice (heap s2) x = get_slice (heap s) x).
  { intros x Nx. rewrite L2, (fo_slice _ _ _ F1); auto. }
  assert (Ui : forall x, U x -> x <> b_inherits b) by (intros x Ux ->; contradiction).
  assert (Ua : forall x, U x -> x <> a) by (intros x Ux ->; contradiction).
  assert (St2 : still U (heap s) (heap s2)) by (split; auto).
  pose proof (still_sealed _ _ _ St2 SU) as SU2.
  assert (Ag : agree_on U (heap s) (heap s2) [] ns).
  { split; [|split]; auto. intros x Ix. split; auto. apply Base2. intros ->. contradiction. }
  assert (F2 : fits pat fmt U (heap s2) [] p q ns).
  { destruct (fits_agree_all pat fmt U (heap s) (heap s2)) as (K & _). apply K; auto. }
  assert (Op2 : open_objects (heap s2) ns) by (eapply open_agree; [exact Op|exact Ag|auto]).
  assert (Rd2 : ready U s2 [] ns) by (split; auto; split; auto; split; auto; contradiction).
  destruct (inherit_derives pat fmt U _ _ _ _ _ _ _ _ F2 Rd2 H7) as (Fr & Se & _).
  destruct (inherit_meets pat fmt U _ _ _ _ _ _ _ _ F2 Rd2 Op2 H7) as [M KO].
  assert (us' = p). { eapply fits_target; [reflexivity|exact F2| |exact H7]. apply Dis; auto. } subst us'.
  destruct (KO fp) as (g' & Tp & Ag' & Pg').
  { exists pb. rewrite Base2; auto. }
  apply bind_inv in H5. destruct H5 as ([] & s5 & H8 & H5).
  destruct (slice_set_eff _ _ _ _ _ _ H8) as (l' & Gl' & Gl5 & B5 & P5 & L5).
  rewrite (fo_slice _ _ _ Fr), Gl2 in Gl'. injection Gl' as <-. simpl in Gl5.
  assert (s3 = s5).
  { destruct k as [|k]; [discriminate|]. cbn [unwrap_more_parents] in H5.
    rewrite (bind_ok _ _ _ _ _ (rd_some _ _ _ _ Gl5)) in H5. cbn [nth_error] in H5. injection H5 as <-. reflexivity. }
  subst s3. clear H5.
  assert (G5 : get_base (heap s5) a = Some (set_unwrapped true b)) by (rewrite B5, (fo_base _ _ _ Fr), B2; auto).
  assert (Rest : forall (kk : Heap.M addr) r s', bind (unwrap_target (S k) (unwrap (S k)) a) (fun _ => bind (unwrap_fdefs (S k) (unwrap (S k)) a) (fun _ => kk)) s5 = (Ok r, s') ->
     kk s5 = (Ok r, s')).
  { clear H. intros kk r0 s0 H. apply bind_inv in H. destruct H as ([] & s6 & H4' & H).
    unfold unwrap_target in H4'. rewrite (bind_ok _ _ _ _ _ (rd_some _ _ _ _ G5)) in H4'.
    change (b_shape (set_unwrapped true b)) with (b_shape b) in H4'. rewrite Sh, Pf in H4'.
    unfold unwrap_optmap in H4'. apply bind_inv in H4'. destruct H4' as ([] & s7 & E & H4'). injection E as <-.
    rewrite (bind_ok _ _ _ _ _ (rd_some _ _ _ _ G5)) in H4'.
    change (b_shape (set_unwrapped true b)) with (b_shape b) in H4'. rewrite Sh, Qf in H4'. injection H4' as <-.
    apply bind_inv in H. destruct H as ([] & s7 & H5 & H). unfold unwrap_fdefs in H5.
    rewrite (bind_ok _ _ _ _ _ (rd_some _ _ _ _ G5)) in H5. cbn [loop_props] in H5.
    assert (Gp5 : get_props (heap s5) (b_fdefs (set_unwrapped true b)) = Some []).
    { change (b_fdefs (set_unwrapped true b)) with (b_fdefs b). rewrite P5, (fo_props _ _ _ Fr), Props2; auto. }
    rewrite (bind_ok _ _ _ _ _ (rd_some _ _ _ _ Gp5)) in H5. injection H5 as <-. exact H. }
  apply Rest in H.
  apply bind_inv in H. destruct H as (a' & s6 & H9 & H). unfold put_shape in H. unfold bind, ret in H. injection H as -> <-. cbn [heap].
  (* the second derivation *)
  set (U2 := fun x => In x ns \/ U x).
  assert (St5 : still U2 (heap s4) (heap s5)).
  { split; intros x Ux; auto. apply L5. intros ->. destruct Ux; contradiction. }
  pose proof (still_sealed _ _ _ St5 Se) as Se5.
  destruct Tp as (pb' & Gp' & Sp').
  assert (Gp5 : get_base (heap s5) p = Some pb') by (rewrite B5; auto).
  assert (Vp : b_visited pb' = false).
  { cbn [inherit] in H9. unfold inherit_body in H9. rewrite (bind_ok _ _ _ _ _ (rd_some _ _ _ _ Gp5)) in H9.
    destruct (b_visited pb'); auto. injection H9 as E _. now contradict Nap. }
  assert (Ta : shape_at (heap s5) a (SObject f)) by (exists (set_unwrapped true b); auto).
  assert (F5 : fits pat fmt U2 (heap s5) [] a p [a]).
  { apply fits_object with (f := f) (g := g'); auto.
    - split; auto. exists pb'. auto.
    - now left.
    - rewrite Qf. discriminate.
    - rewrite Pf. apply pf_new. }
  assert (Rd5 : ready U2 s5 [] [a]).
  { split; [repeat constructor; auto|]. split; [intros x [<-|[]] [K|K]; contradiction|]. split; [exact Se5|contradiction]. }
  assert (Op5 : open_objects (heap s5) [a]).
  { intros x f0 [<-|[]] T0. pose proof (shape_at_fun _ _ _ _ Ta T0) as E. injection E as <-. auto. }
  destruct (inherit_meets pat fmt U2 _ _ _ _ _ _ _ _ F5 Rd5 Op5 H9) as [M5 _].
  intros O v HO Hv. rewrite (M5 O v HO Hv).
  rewrite <- (still_valid _ O _ _ St5 Se p v) by now left. rewrite (M O v HO Hv).
  assert (Sa : shape_at (heap s) a (SObject f)) by (exists b; auto).
  rewrite <- (still_valid U O _ _ St2 SU q v Hq).
  destruct (fits_sealed_all pat fmt U (heap s) SU) as (SF & _). pose proof (SF _ _ _ _ F) as Sn.
  assert (Stn : still U2 (heap s) (heap s2)).
  { split; auto.
    - intros x [K|K]; apply Base2; intros ->; contradiction.
    - intros x [K|K]; apply Slice2; intros ->; contradiction. }
  rewrite <- (still_valid U2 O _ _ Stn Sn p v) by now left.
  split; intros [A1 A2]; (split; [|exact A2]).
  - exact (bare_valid O (heap s5) (heap s) a f v Ta Sa Pf Qf A1).
  - exact (bare_valid O (heap s) (heap s5) a f v Sa Ta Pf Qf A1).
Qed.
