(** Proofs about Inherit, UnwrapShape and AliasTo that need no invariant of the
    whole graph (C16, C18, C27, C47). *)
From Coq Require Import ZArith List String Bool Lia.
From Verif Require Import Base Scalars Heap Heap_lemmas Validate Validate_proofs Spec_Validate Spec_Model.
Import ListNotations.
Open Scope string_scope.
Open Scope list_scope.
Open Scope nat_scope.

(** * Evolution facts *)
Lemma evolves_base s s' a b : evolves s s' -> get_base (heap s) a = Some b ->
  exists b', get_base (heap s') a = Some b' /\ (b_unwrapped b = true -> b_unwrapped b' = true).
Proof.
  intros X E. apply get_base_nth in E. destruct (X _ _ E) as (c & E' & L).
  destruct c; simpl in L; try contradiction. exists b0. split; auto. now apply get_base_nth.
Qed.

Lemma evolves_run {A} (m : M A) s r s' : pres_at evolves s m -> m s = (r, s') -> evolves s s'.
Proof. unfold pres_at, after. intros H E. now rewrite E in H. Qed.

(** * C27 *)
Lemma unwrap_again n a s b sh :
  get_base (heap s) a = Some b -> b_shape b = Some sh -> b_unwrapped b = true ->
  unwrap (S n) a s = (Ok a, s).
Proof.
  intros E S U. cbn [unwrap]. rewrite (bind_ok _ _ _ _ _ (rd_some _ _ _ _ E)). now rewrite S, U.
Qed.

Lemma unwrap_marks n a s r s' : unwrap n a s = (Ok r, s') ->
  exists b, get_base (heap s') a = Some b /\ b_unwrapped b = true.
Proof.
  destruct n as [|n]; [discriminate|]. cbn [unwrap]. intros H.
  apply bind_inv in H. destruct H as (b & s1 & R & H). apply rd_ok in R. destruct R as [-> E].
  destruct (b_shape b); [|discriminate]. destruct (b_unwrapped b) eqn:U.
  - injection H as <- <-. eauto.
  - apply bind_inv in H. destruct H as (u & s1 & W & H).
    assert (E1 : exists b1, get_base (heap s1) a = Some b1 /\ b_unwrapped b1 = true).
    { unfold upd_base in W. rewrite (bind_ok _ _ _ _ _ (rd_some _ _ _ _ E)) in W.
      unfold write in W. injection W as _ <-. simpl. exists (set_unwrapped true b). split; auto.
      apply get_base_nth. eapply nth_error_upd_eq. apply get_base_nth. eauto. }
    destruct E1 as (b1 & E1 & U1).
    assert (X : evolves s1 s').
    { eapply (evolves_run _ _ _ _ (A := addr)); [|exact H].
      destruct (b_alias b).
      - apply pres_at_bind; [exact evolves_trans|apply unwrap_evo|]. intros.
        apply pres_at_bind; [exact evolves_trans|auto with evo|]. intros. apply evolves_alias_to.
      - apply pres_at_bind; [exact evolves_trans|apply unwrap_parents_evo; auto using unwrap_evo, inherit_evo|]. intros.
        apply pres_at_bind; [exact evolves_trans|apply unwrap_target_evo; auto using unwrap_evo|]. intros.
        apply pres_at_bind; [exact evolves_trans|apply unwrap_fdefs_evo; auto using unwrap_evo|]. intros.
        apply pres_at_bind; [exact evolves_trans| |].
        { destruct a0; [apply inherit_evo|apply pres_at_ret, evolves_refl]. }
        intros. apply pres_at_bind; [exact evolves_trans|auto with evo|]. intros. apply pres_at_ret, evolves_refl. }
    destruct (evolves_base _ _ _ _ X E1) as (b2 & E2 & L). eauto.
Qed.

Theorem unwrap_idempotent n m a s r s' : unwrap n a s = (Ok r, s') ->
  (forall b, get_base (heap s') a = Some b -> b_shape b <> None) ->
  unwrap (S m) a s' = (Ok a, s').
Proof.
  intros H K. destruct (unwrap_marks _ _ _ _ _ H) as (b & E & U). specialize (K _ E).
  destruct (b_shape b) as [sh|] eqn:S; [|congruence]. eapply unwrap_again; eauto.
Qed.

(** * C16 *)
Lemma inherit_kinds n s src st0 tb sb tsh ssh :
  get_base (heap st0) s = Some tb -> get_base (heap st0) src = Some sb ->
  b_shape tb = Some tsh -> b_shape sb = Some ssh ->
  s <> src ->
  b_visited sb = false -> ssh <> SAny -> (forall l e, ssh <> SUnion l e) -> (forall l e, tsh <> SUnion l e) ->
  ~ same_kind tsh ssh ->
  (forall f hd, tsh = SObject f -> ssh = SRec hd -> exists hsh, shape_at (heap st0) hd hsh /\ ~ same_kind tsh hsh) ->
  forall r, fst (inherit n s src st0) <> Ok r.
Proof.
  intros Et Es Tt Ts NE V NA NU NT NK NR r. destruct n as [|n]; [discriminate|].
  cbn [inherit]. unfold inherit_body. destruct (bind _ _ st0) as [q s'] eqn:H. simpl. intros ->.
  apply bind_inv in H. destruct H as (x & s1 & R & H). apply rd_ok in R. destruct R as [-> E].
  replace x with sb in * by congruence. clear x E. rewrite V in H.
  apply bind_inv in H. destruct H as (u & s1 & W & H).
  assert (E1 : s1 = St (upd src (CBase (set_visited true sb)) (heap st0)) (st_shapes st0) (st_nextid st0)).
  { unfold upd_base in W. rewrite (bind_ok _ _ _ _ _ (rd_some _ _ _ _ Es)) in W.
    unfold write in W. now injection W as _ <-. }
  apply bind_inv in H. destruct H as (x & s2 & R & H). apply rd_ok in R. destruct R as [-> E2].
  assert (x = tb).
  { apply get_base_nth in E2. rewrite E1 in E2. simpl in E2. rewrite nth_error_upd_neq in E2 by auto.
    apply get_base_nth in E2. congruence. }
  subst x.
  apply bind_inv in H. destruct H as (u2 & s2 & W2 & H).
  apply bind_inv in H. destruct H as (fm & s3 & R3 & H). apply rd_ok in R3. destruct R3 as [-> E3].
  apply bind_inv in H. destruct H as (fm' & s3 & R3 & H). apply rd_ok in R3. destruct R3 as [-> E4].
  apply bind_inv in H. destruct H as (u3 & s3 & W3 & H).
  rewrite Tt, Ts in H.
  assert (X : forall k : M addr, (bind (inherit_shape n (inherit n) s src tsh ssh) (fun _ => k) s3) = (Ok r, s') -> False).
  { intros k K. apply bind_inv in K. destruct K as (u4 & s4 & K & _).
    unfold inherit_shape in K.
    destruct tsh, ssh; simpl in NK; try tauto; try (now eapply NA); try (now eapply NU); try (now eapply NT);
      simpl in K; try discriminate.
    apply bind_inv in K. destruct K as (hb & s5 & R5 & K). apply rd_ok in R5. destruct R5 as [-> E5].
    destruct (NR _ _ eq_refl eq_refl) as (hsh & (hb0 & Hh & Hs) & NK2).
    (* the shape of the head has not been changed *)
    assert (SH : b_shape hb = Some hsh).
    { assert (P1 : exists b1, get_base (heap s1) head = Some b1 /\ b_shape b1 = Some hsh).
      { rewrite E1. simpl. destruct (Nat.eq_dec src head) as [<-|N].
        - exists (set_visited true sb). split; [|simpl; congruence].
          apply get_base_nth. eapply nth_error_upd_eq. apply get_base_nth. eauto.
        - exists hb0. split; auto. apply get_base_nth. rewrite nth_error_upd_neq by auto.
          now apply get_base_nth. }
      destruct P1 as (b1 & P1 & Q1).
      assert (P2 : exists b2, get_base (heap s2) head = Some b2 /\ b_shape b2 = Some hsh).
      { destruct (b_desc tb) as [d|].
        - injection W2 as _ <-. eauto.
        - unfold upd_base in W2. rewrite (bind_ok _ _ _ _ _ (rd_some _ _ _ _ E2)) in W2.
          unfold write in W2. injection W2 as _ <-. simpl. destruct (Nat.eq_dec s head) as [<-|N].
          + exists (set_desc (b_desc sb) tb). split; [|simpl; congruence].
            apply get_base_nth. eapply nth_error_upd_eq. apply get_base_nth. eauto.
          + exists b1. split; auto. apply get_base_nth. rewrite nth_error_upd_neq by auto.
            now apply get_base_nth. }
      destruct P2 as (b2 & P2 & Q2). unfold write in W3. injection W3 as _ <-. simpl in E5.
      destruct (Nat.eq_dec (b_facets tb) head) as [<-|N].
      - apply get_facets_nth in E3. apply get_base_nth in P2. congruence.
      - apply get_base_nth in E5. rewrite nth_error_upd_neq in E5 by auto. apply get_base_nth in E5. congruence. }
    rewrite SH in K. destruct hsh; try discriminate K. apply NK2. exact I. }
  destruct tsh, ssh; simpl in NK; try tauto; try (now eapply NA); try (now eapply NU); try (now eapply NT);
    eapply X; exact H.
Qed.

(** * C18: the flag *)
Lemma upd_base_run a f s u s' : upd_base a f s = (Ok u, s') ->
  exists b, get_base (heap s) a = Some b /\ get_base (heap s') a = Some (f b).
Proof.
  intros H. apply bind_inv in H. destruct H as (b & s1 & R & H). apply rd_ok in R. destruct R as [-> E].
  unfold write in H. injection H as _ <-. simpl. exists b. split; auto.
  apply get_base_nth. eapply nth_error_upd_eq. apply get_base_nth. eauto.
Qed.

Lemma inherit_flag n s src st0 tb sb tsh ssh r st' :
  get_base (heap st0) s = Some tb -> get_base (heap st0) src = Some sb -> s <> src ->
  b_shape tb = Some tsh -> b_shape sb = Some ssh ->
  b_visited sb = false -> ssh <> SAny ->
  ((forall l e, ssh <> SUnion l e) /\ (forall l e, tsh <> SUnion l e)
   \/ (exists l e l' e', ssh = SUnion l e /\ tsh = SUnion l' e')) ->
  inherit n s src st0 = (Ok r, st') ->
  r = s /\ exists sb', get_base (heap st') src = Some sb' /\ b_visited sb' = false.
Proof.
  intros Et Es NE Tt Ts V NA U H. destruct n as [|n]; [discriminate|].
  cbn [inherit] in H. unfold inherit_body in H.
  apply bind_inv in H. destruct H as (x & s1 & R & H). apply rd_ok in R. destruct R as [-> E].
  replace x with sb in * by congruence. clear x E. rewrite V in H.
  apply bind_inv in H. destruct H as (u & s1 & W & H).
  assert (E1 : s1 = St (upd src (CBase (set_visited true sb)) (heap st0)) (st_shapes st0) (st_nextid st0)).
  { unfold upd_base in W. rewrite (bind_ok _ _ _ _ _ (rd_some _ _ _ _ Es)) in W.
    unfold write in W. now injection W as _ <-. }
  apply bind_inv in H. destruct H as (x & s2 & R & H). apply rd_ok in R. destruct R as [-> E2].
  assert (x = tb).
  { apply get_base_nth in E2. rewrite E1 in E2. simpl in E2. rewrite nth_error_upd_neq in E2 by auto.
    apply get_base_nth in E2. congruence. }
  subst x.
  apply bind_inv in H. destruct H as (u2 & s2 & W2 & H).
  apply bind_inv in H. destruct H as (fm & s3 & R3 & H). apply rd_ok in R3. destruct R3 as [-> E3].
  apply bind_inv in H. destruct H as (fm' & s3 & R3 & H). apply rd_ok in R3. destruct R3 as [-> E4].
  apply bind_inv in H. destruct H as (u3 & s3 & W3 & H).
  rewrite Tt, Ts in H.
  assert (X : bind (inherit_shape n (inherit n) s src tsh ssh) (fun _ =>
            bind (upd_base src (set_visited false)) (fun _ => ret s)) s3 = (Ok r, st') ->
       r = s /\ exists sb', get_base (heap st') src = Some sb' /\ b_visited sb' = false).
  { intros K. apply bind_inv in K. destruct K as (u4 & s4 & _ & K).
    apply bind_inv in K. destruct K as (u5 & s5 & K & K'). injection K' as <- <-. split; auto.
    apply upd_base_run in K. destruct K as (b & _ & K). exists (set_visited false b). split; auto. }
  destruct U as [[U1 U2]|(l & e & l' & e' & -> & ->)]; [|exact (X H)].
  destruct tsh, ssh; try (exfalso; now eapply NA); try (exfalso; now eapply U1);
    try (exfalso; now eapply U2); exact (X H).
Qed.

(** * C47 *)
Lemma alias_to_run t s st0 r st' : alias_to t s st0 = (Ok r, st') -> t <> s ->
  r = t /\ exists tb sb tsh ssh sh tb',
    get_base (heap st0) t = Some tb /\ get_base (heap st0) s = Some sb /\ get_base (heap st') s = Some sb /\ b_shape tb = Some tsh /\ b_shape sb = Some ssh
    /\ alias_shape tsh ssh = Ok sh /\ get_base (heap st') t = Some tb' /\ b_shape tb' = Some sh.
Proof.
  intros H N. unfold alias_to in H.
  apply bind_inv in H. destruct H as (tb & s1 & R & H). apply rd_ok in R. destruct R as [-> E].
  apply bind_inv in H. destruct H as (sb & s1 & R & H). apply rd_ok in R. destruct R as [-> E'].
  destruct (b_shape tb) as [tsh|] eqn:St; [|discriminate]. destruct (b_shape sb) as [ssh|] eqn:Ss; [|discriminate].
  destruct (alias_shape tsh ssh) as [sh| | |] eqn:A; try discriminate.
  unfold bind, write in H. injection H as <- <-. simpl. split; auto.
  exists tb, sb, tsh, ssh, sh. eexists. repeat (split; [try eassumption|]).
  - apply get_base_nth. rewrite nth_error_upd_neq by auto. now apply get_base_nth.
  - apply get_base_nth. eapply nth_error_upd_eq. apply get_base_nth. eauto.
  - reflexivity.
Qed.

Lemma alias_shape_same t s sh : alias_shape t s = Ok sh -> (forall e, s <> SBool e) -> sh = s.
Proof. destruct t, s; simpl; intros H N; try discriminate; try (injection H as <-; reflexivity). now exfalso; eapply N. Qed.

Lemma validate_same_shape n O h a b ba bb v :
  get_base h a = Some ba -> get_base h b = Some bb -> b_shape ba = b_shape bb ->
  validate n O h a v = validate n O h b v.
Proof.
  intros A B S. destruct n as [|n]; auto. cbn [validate]. now rewrite A, B, S.
Qed.

Theorem alias_equivalent n a st0 b al r st' :
  get_base (heap st0) a = Some b -> b_alias b = Some al -> b_unwrapped b = false ->
  unwrap (S n) a st0 = (Ok r, st') ->
  exists us st1 st2, unwrap n al st1 = (Ok us, st2)
    /\ ((forall e, ~ shape_at (heap st') us (SBool e)) ->
        r = a /\ forall m O v, validate m O (heap st') a v = validate m O (heap st') us v).
Proof.
  intros E A U H. cbn [unwrap] in H.
  rewrite (bind_ok _ _ _ _ _ (rd_some _ _ _ _ E)) in H. destruct (b_shape b); [|discriminate].
  rewrite U, A in H.
  apply bind_inv in H. destruct H as (u & s1 & W & H).
  apply bind_inv in H. destruct H as (us & s2 & K & H).
  apply bind_inv in H. destruct H as (u2 & s3 & P & H).
  exists us, s1, s2. split; auto. intros NB.
  destruct (Nat.eq_dec a us) as [<-|N].
  - split; [|auto]. unfold alias_to in H. apply bind_inv in H. destruct H as (x & ? & ? & H).
    apply bind_inv in H. destruct H as (y & ? & ? & H).
    destruct (b_shape x) as [p|]; [|discriminate]. destruct (b_shape y) as [q|]; [|discriminate].
    destruct (alias_shape p q); try discriminate. unfold bind, write in H. now injection H as <- <-.
  - apply alias_to_run in H; auto.
    destruct H as (-> & tb & sb & tsh & ssh & sh & tb' & E1 & _ & E2 & S1 & S2 & AS & E3 & S3).
    split; auto. intros m O v. eapply validate_same_shape; eauto.
    rewrite S3. rewrite S2. f_equal. eapply alias_shape_same; eauto. intros e ->. apply (NB e). exists sb. auto.
Qed.

Theorem alias_of_unwrapped n a st0 b al ab sh r st' :
  get_base (heap st0) a = Some b -> b_alias b = Some al -> b_unwrapped b = false -> al <> a ->
  get_base (heap st0) al = Some ab -> b_shape ab = Some sh -> b_unwrapped ab = true ->
  (forall e, sh <> SBool e) ->
  unwrap n a st0 = (Ok r, st') ->
  r = a /\ shape_at (heap st') al sh
  /\ forall m O v, validate m O (heap st') a v = validate m O (heap st') al v.
Proof.
  intros E A U N E' S' U' NB H. destruct n as [|[|n]]; [discriminate| |].
  { cbn [unwrap] in H. rewrite (bind_ok _ _ _ _ _ (rd_some _ _ _ _ E)) in H.
    destruct (b_shape b); [|discriminate]. rewrite U, A in H.
    apply bind_inv in H. destruct H as (? & ? & _ & H). discriminate. }
  cbn [unwrap] in H. rewrite (bind_ok _ _ _ _ _ (rd_some _ _ _ _ E)) in H.
  destruct (b_shape b) as [bsh|] eqn:SB; [|discriminate]. rewrite U, A in H.
  apply bind_inv in H. destruct H as (u & s1 & W & H).
  assert (E1 : get_base (heap s1) al = Some ab).
  { unfold upd_base in W. rewrite (bind_ok _ _ _ _ _ (rd_some _ _ _ _ E)) in W.
    unfold write in W. injection W as _ <-. simpl. apply get_base_nth.
    rewrite nth_error_upd_neq by auto. now apply get_base_nth. }
  apply bind_inv in H. destruct H as (us & s2 & K & H).
  change (unwrap (S n) al s1 = (Ok us, s2)) in K.
  rewrite (unwrap_again n al s1 ab sh E1 S' U') in K. injection K as <- <-.
  apply bind_inv in H. destruct H as (u2 & s3 & P & H). unfold put_shape in P. injection P as _ <-.
  apply alias_to_run in H; auto.
  destruct H as (-> & tb & sb & tsh & ssh & sh' & tb' & Q1 & Q0 & Q2 & S1 & S2 & AS & E3 & S3).
  replace sb with ab in * by (simpl in Q0; congruence). replace ssh with sh in * by congruence.
  split; auto. split; [exists ab; auto|].
  intros m O v. eapply validate_same_shape; eauto. rewrite S3, S2. f_equal.
  eapply alias_shape_same; eauto.
Qed.
