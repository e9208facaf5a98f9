(** Proofs about ValidateShapes and UnwrapShapes (C26, C53, C54). *)
From Coq Require Import ZArith List String Bool Lia.
From Verif Require Import Base Scalars Heap Heap_lemmas Validate Names Pipeline Spec_Validate Spec_Model Spec_Clone
  Spec_Region Spec_Names Spec_Pipeline Clone_proofs Region_proofs Label_proofs Names_proofs.
Import ListNotations.
Open Scope string_scope.
Open Scope list_scope.
Open Scope nat_scope.

(** * The cells a clone is made of *)

Section CloneRegion.
Variable h0 : list cell.
Hypothesis W : wf_heap h0.
Hypothesis U : ids_unique h0.
Hypothesis NR : no_rec h0.

Lemma clone_region n a c s s' : (exists x, heap s = h0 ++ x) -> old h0 a -> clone_detached n a s = (Ok c, s') ->
  exists R : addr -> Prop, R c /\ closed R (heap s') /\ (forall z, R z -> List.length (heap s) <= z)
    /\ forall z, List.length (heap s') <= z -> R z.
Proof.
  intros Ex Oa H.
  pose proof (extends_after _ _ _ _ (clone_detached_ext n a s) H) as XX.
  pose proof (ext_length _ _ XX) as LL.
  destruct (clone_isomorphic_in _ _ _ _ _ _ W U Ex Oa H) as (ph & P & _ & _ & Q).
  set (own := fun z => exists y b', (exists x, ph x y) /\ get_base (heap s') y = Some b' /\ (owns b' z \/ b_link b' = Some z)).
  set (R := fun z => (exists x, ph x z) \/ own z \/ List.length (heap s') <= z).
  exists R.
  assert (Rph : forall x z, ph x z -> R z) by (unfold R; eauto).
  assert (Row : forall z, own z -> R z) by (unfold R; auto).
  split; [eauto|]. split; [|split; [|unfold R; auto]].
  2:{ intros z [(x & Px)|[(y & b' & (x & Px) & E & O)|L]].
      - apply (Q _ _ Px).
      - destruct (Q _ _ Px) as (_ & b & b2 & _ & E2 & _ & O1 & O2). replace b2 with b' in * by congruence.
        destruct O; auto.
      - lia. }
  assert (InP : forall l l', Forall2 (prop_copy ph) l l' -> props_in R l').
  { intros l l' F. induction F as [|u w l l' K F IHF]; constructor; auto. destruct K as (_ & _ & _ & K). simpl. eauto. }
  assert (InS : forall l l', Forall2 ph l l' -> Forall R l').
  { intros l l' F. induction F as [|u w l l' K F IHF]; constructor; eauto. }
  intros z d [(x & Px)|[(y & b' & (x & Px) & E & O)|L]] N.
  - destruct (Q _ _ Px) as (_ & b & b' & E & E' & C & O1 & O2).
    apply get_base_nth in E'. rewrite N in E'. injection E' as ->. simpl.
    assert (OW : forall w, owns b' w -> R w).
    { intros w Ow. apply Row. exists z, b'. split; eauto. split; auto. now apply get_base_nth. }
    destruct C as (_ & _ & _ & _ & _ & _ & _ & _ & _ & _ & _ & _ & _ & CF & CD & CI & CA & CL & CS).
    repeat split; try (apply OW; constructor).
    + intros w Ew. rewrite Ew in CA. destruct (b_alias b); simpl in CA; [eauto|contradiction].
    + intros w Ew. apply Row. exists z, b'. split; eauto. split; [now apply get_base_nth|auto].
    + intros sh Es. rewrite Es in CS. destruct (b_shape b) as [sh0|] eqn:Sh; simpl in CS; [|contradiction].
      destruct sh, sh0; simpl in CS; try contradiction; try discriminate CS; simpl; auto.
      * intros w Ew. destruct CS as (C1 & _). rewrite Ew in C1. destruct (a_items f0); simpl in C1; [eauto|contradiction].
      * split; intros w Ew; apply OW; [eapply ow_props|eapply ow_pprops]; eauto.
      * apply OW. eapply ow_anyof; eauto.
      * exfalso. apply (NR x head0). exists b; auto.
  - destruct (Q _ _ Px) as (_ & b & b2 & _ & E2 & C & O1 & O2). replace b2 with b' in * by congruence. clear b2 E2.
    destruct C as (_ & _ & _ & _ & _ & _ & _ & _ & _ & _ & _ & _ & _ & CF & CD & CI & CA & CL & CS).
    assert (PC : forall m, (exists m0, props_copy h0 (heap s') ph m0 m) -> nth_error (heap s') m = Some d -> cell_in R d).
    { intros m (m0 & l & l' & _ & F & K) Nm. apply get_props_nth in F. rewrite F in Nm. injection Nm as <-. simpl. eauto. }
    assert (SC : forall m, (exists m0, slice_copy h0 (heap s') ph m0 m) -> nth_error (heap s') m = Some d -> cell_in R d).
    { intros m (m0 & l & l' & _ & F & K) Nm. apply get_slice_nth in F. rewrite F in Nm. injection Nm as <-. simpl. eauto. }
    destruct O as [Ow|Lk].
    + destruct Ow as [| | |f m E1 E2|f m E1 E2|sl e E1].
      * destruct CF as (m & _ & F). apply get_facets_nth in F. rewrite F in N. injection N as <-. exact I.
      * eapply PC; eauto.
      * eapply SC; eauto.
      * rewrite E1 in CS. destruct (b_shape b) as [[]|]; simpl in CS; try contradiction; try discriminate CS.
        destruct CS as (_ & _ & _ & C1 & _ & _). rewrite E2 in C1. destruct (o_props f0); simpl in C1; [|contradiction]. eapply PC; eauto.
      * rewrite E1 in CS. destruct (b_shape b) as [[]|]; simpl in CS; try contradiction; try discriminate CS.
        destruct CS as (_ & _ & _ & _ & C1 & _). rewrite E2 in C1. destruct (o_pprops f0); simpl in C1; [|contradiction]. eapply PC; eauto.
      * rewrite E1 in CS. destruct (b_shape b) as [[]|]; simpl in CS; try contradiction; try discriminate CS.
        destruct CS as (_ & C1). eapply SC; eauto.
    + rewrite Lk in CL. destruct (b_link b); simpl in CL; [|contradiction].
      destruct CL as (u & u' & _ & F & K). apply get_dt_nth in F. rewrite F in N. injection N as <-.
      intros w Ew. injection Ew as <-. eauto.
  - apply nth_error_lt in N. lia.
Qed.

(** * Operations that only add cells *)

Definition grown (s : st) : Prop := exists x, heap s = h0 ++ x.
Definition adds {A} (m : M A) : Prop := forall s, grown s -> exists y, heap (after m s) = heap s ++ y.

Lemma grown_adds {A} (m : M A) s : adds m -> grown s -> grown (after m s).
Proof. intros H (x & E). destruct (H s (ex_intro _ x E)) as (y & Y). exists (x ++ y). now rewrite Y, E, app_assoc. Qed.
Lemma adds_same {A} (m : M A) : (forall s, heap (after m s) = heap s) -> adds m.
Proof. intros H s _. exists []. now rewrite H, app_nil_r. Qed.
Lemma adds_ret {A} (x : A) : adds (ret x).
Proof. now apply adds_same. Qed.
Lemma adds_fail {A} : adds (@fail A).
Proof. now apply adds_same. Qed.
Lemma adds_panic {A} : adds (@mpanic A).
Proof. now apply adds_same. Qed.
Lemma adds_rd {A} (get : list cell -> addr -> option A) a : adds (rd get a).
Proof. apply adds_same. intros s. unfold after, rd. now destruct (get (heap s) a). Qed.
Lemma adds_bind {A B} (m : M A) (f : A -> M B) : adds m -> (forall x, adds (f x)) -> adds (bind m f).
Proof.
  intros H K s G. pose proof (grown_adds m s H G) as G'. destruct (H s G) as (y & Y). unfold after, bind in *.
  destruct (m s) as [[x| | |] s1]; simpl in *; eauto.
  destruct (K x s1 G') as (y' & Y'). exists (y ++ y'). unfold after in Y'. now rewrite Y', Y, app_assoc.
Qed.
Lemma adds_try {A} (m : M A) : adds m -> adds (try m).
Proof.
  intros H s G. destruct (H s G) as (y & Y). unfold after, try in *. destruct (m s) as [[x| | |] s1]; simpl in *; eauto.
Qed.

Lemma untouched_adds (R : addr -> Prop) h h' k : (forall z, R z -> List.length k <= z) -> (exists x, h = k ++ x) ->
  untouched R h h' -> exists x, h' = k ++ x.
Proof.
  intros L (x & ->) V. exists (skipn (List.length k) h').
  rewrite <- (firstn_skipn (List.length k) h') at 1. f_equal.
  assert (Q : forall i, i < List.length k -> nth_error h' i = nth_error k i).
  { intros i Li. rewrite V, nth_error_app1 by (auto; intros Ri; specialize (L _ Ri); lia). reflexivity. }
  clear V L. revert h' Q. induction k as [|c k IH]; intros h' Q; simpl; auto.
  destruct h' as [|c' h']; [specialize (Q 0 ltac:(simpl; lia)); discriminate|].
  assert (Some c' = Some c) as [= ->] by (exact (Q 0 ltac:(simpl; lia))).
  f_equal. apply IH. intros i Li. apply (Q (S i)). simpl; lia.
Qed.

Lemma adds_val_unwrap n a c : old h0 a -> adds (val_unwrap n a c).
Proof.
  intros Oa s G. unfold val_unwrap.
  destruct (rd get_base a s) as [[b| | |] s0] eqn:E; unfold after, bind at 1; rewrite E; simpl.
  2-4: unfold rd in E; destruct (get_base (heap s) a); inversion E; subst; exists []; now rewrite app_nil_r.
  apply rd_ok in E. destruct E as [-> E]. destruct (b_unwrapped b); [exists []; now rewrite app_nil_r|].
  unfold bind at 1. destruct (clone_detached n a s) as [[a'| | |] s1] eqn:C; simpl.
  2-4: destruct (extends_after _ _ _ _ (clone_detached_ext n a s) C) as ((x & X) & _); eauto.
  pose proof (extends_after _ _ _ _ (clone_detached_ext n a s) C) as ((x & X) & _).
  destruct (clone_region _ _ _ _ _ G Oa C) as (R & Rc & Cl & Lo & New).
  assert (ST : stays R (List.length (heap s1)) (bind (unwrap n a') (fun us => bind (mark n us) (fun _ => bind (rd get_base a') (fun b' =>
     ret (us, (b_id b', us) :: c))))) (fun _ => True)).
  { eapply stays_bind; [apply stays_unwrap; auto|]. intros us Ru.
    eapply stays_bind; [apply stays_mark; auto|]. intros o _.
    eapply stays_bind; [apply stays_rd_base; auto|]. intros. apply stays_ret. auto. }
  destruct (ST s1) as (_ & V & _); [split; auto|].
  unfold after in V. apply (untouched_adds R _ _ (heap s)) in V; eauto.
Qed.

Lemma adds_check n O a : adds (check_type n O a).
Proof. apply adds_same. intros s. unfold after, check_type. now destruct (check n O (heap s) a). Qed.

Lemma adds_validate_type n O a c : old h0 a -> adds (validate_type n O a c).
Proof.
  intros Oa. unfold validate_type. apply adds_bind; [apply adds_try, adds_val_unwrap; auto|].
  intros [[us c']|]; [|apply adds_ret]. apply adds_bind; [apply adds_try, adds_check|]. intros. apply adds_ret.
Qed.
Lemma adds_validate_types n O l : forall c, (forall k a, In (k, a) l -> old h0 a) -> adds (validate_types n O l c).
Proof.
  induction l as [|[k a] l IH]; intros c D; simpl; [apply adds_ret|].
  apply adds_bind; [apply adds_validate_type; eapply D; left; reflexivity|]. intros r.
  apply adds_bind; [apply IH; intros; eapply D; right; eauto|]. intros. apply adds_ret.
Qed.

Variable R : raml.
Hypothesis D : declared_ok h0 R.

Lemma adds_validate_fragment n O loc f c : In (loc, f) (r_frags R) -> adds (validate_fragment n O (r_libs R) f c).
Proof.
  intros If. destruct f as [l|uses [a|]|]; simpl; try apply adds_panic; try apply adds_ret.
  - destruct (nth_error (r_libs R) l) as [lib|] eqn:E; [|apply adds_panic]. apply nth_error_In in E.
    unfold validate_library. apply adds_bind.
    { apply adds_validate_types. intros k a I. apply D. eapply dc_annot; eauto. }
    intros r. apply adds_bind; [|intros; apply adds_ret].
    apply adds_validate_types. intros k a I. apply D. eapply dc_type; eauto.
  - apply adds_validate_type. apply D. eapply dc_data; eauto.
Qed.
Lemma oget_In {A} k (m : omap A) x : oget k m = Some x -> In (k, x) m.
Proof.
  induction m as [|[k' x'] m IH]; simpl; [discriminate|]. destruct (String.eqb_spec k k') as [->|N]; auto.
  intros [= ->]. auto.
Qed.
Lemma adds_validate_fragments n O order : forall c, adds (validate_fragments n O R order c).
Proof.
  induction order as [|k order IH]; intros c; simpl; [apply adds_ret|].
  destruct (oget k (r_frags R)) as [f|] eqn:E; [|apply IH].
  apply adds_bind; [eapply adds_validate_fragment, oget_In; eauto|]. intros r.
  apply adds_bind; [apply IH|]. intros. apply adds_ret.
Qed.
Lemma validate_ext_same n O e c s : after (validate_ext n O e c) s = s.
Proof.
  unfold after, validate_ext. destruct (e_def e) as [db|]; auto. unfold bind at 1, rd.
  destruct (get_base (heap s) db) as [b|]; auto. unfold bind. destruct (b_unwrapped b); auto. destruct (cm_get (b_id b) c); auto.
Qed.
Lemma validate_exts_same n O l c : forall s, after (validate_exts n O l c) s = s.
Proof.
  induction l as [|e l IH]; intros s; simpl; auto. unfold after, bind at 1, try.
  pose proof (validate_ext_same n O e c s) as Q. unfold after in Q.
  destruct (validate_ext n O e c s) as [[u| | |] s1]; simpl in *; subst s1; auto;
    unfold bind; specialize (IH s); unfold after in IH; destruct (validate_exts n O l c s) as [[v| | |] s2]; simpl in *; auto.
Qed.
Lemma adds_validate_shapes n O order : adds (validate_shapes n O order R).
Proof.
  unfold validate_shapes. apply adds_bind; [apply adds_validate_fragments|]. intros r.
  apply adds_bind; [apply adds_same; intros; now rewrite validate_exts_same|]. intros ok.
  destruct (fst r && ok); [apply adds_ret|apply adds_fail].
Qed.
End CloneRegion.

(** * C26 *)

Theorem validate_shapes_untouched n O order R s r s' :
  wf_heap (heap s) -> ids_unique (heap s) -> no_rec (heap s) -> declared_ok (heap s) R ->
  validate_shapes n O order R s = (r, s') ->
  forall z, z < List.length (heap s) -> nth_error (heap s') z = nth_error (heap s) z.
Proof.
  intros W U NR D H z L.
  destruct (adds_validate_shapes (heap s) W U NR R D n O order s) as (y & Y).
  - exists []. now rewrite app_nil_r.
  - unfold after in Y. rewrite H in Y. simpl in Y. rewrite Y. now apply nth_error_app1.
Qed.

(** When everything is unwrapped already nothing at all happens. *)
Section Unwrapped.
Variable s : st.
Definition ready (a : addr) : Prop := exists b, get_base (heap s) a = Some b /\ b_unwrapped b = true.

Lemma try_same {A} (m : M A) : after m s = s -> after (try m) s = s.
Proof. unfold after, try. destruct (m s) as [[x| | |] s1]; auto. Qed.
Lemma bind_same {A B} (m : M A) (f : A -> M B) : after m s = s -> (forall x, after (f x) s = s) -> after (bind m f) s = s.
Proof. unfold after, bind. intros H K. destruct (m s) as [[x| | |] s1]; simpl in *; subst; auto. Qed.
Lemma validate_type_same n O a c : ready a -> after (validate_type n O a c) s = s.
Proof.
  intros (b & E & Q). unfold validate_type. apply bind_same.
  - apply try_same. unfold val_unwrap, after. rewrite (bind_ok _ _ _ _ _ (rd_some _ _ _ _ E)), Q. reflexivity.
  - intros [[us c']|]; [|reflexivity]. apply bind_same; [|reflexivity]. apply try_same. unfold after, check_type.
    now destruct (check n O (heap s) us).
Qed.
Lemma validate_types_same n O l : forall c, (forall k a, In (k, a) l -> ready a) -> after (validate_types n O l c) s = s.
Proof.
  induction l as [|[k a] l IH]; intros c D; simpl; [reflexivity|].
  apply bind_same; [apply validate_type_same; eapply D; left; reflexivity|]. intros r.
  apply bind_same; [apply IH; intros; eapply D; right; eauto|]. reflexivity.
Qed.
Lemma validate_fragments_same n O R order : (forall a, declares R a -> ready a) ->
  forall c, after (validate_fragments n O R order c) s = s.
Proof.
  intros D. induction order as [|k order IH]; intros c; simpl; [reflexivity|].
  destruct (oget k (r_frags R)) as [f|] eqn:E; [|apply IH]. apply oget_In in E.
  apply bind_same; [|intros r; apply bind_same; [apply IH|reflexivity]].
  destruct f as [l|uses [a|]|]; simpl; try reflexivity.
  - destruct (nth_error (r_libs R) l) as [lib|] eqn:N; [|reflexivity]. apply nth_error_In in N.
    unfold validate_library. apply bind_same.
    { apply validate_types_same. intros k' a I. apply D. eapply dc_annot; eauto. }
    intros r. apply bind_same; [|reflexivity].
    apply validate_types_same. intros k' a I. apply D. eapply dc_type; eauto.
  - apply validate_type_same. apply D. eapply dc_data; eauto.
Qed.
End Unwrapped.

Theorem validate_shapes_unwrapped n O order R s r s' :
  (forall a, declares R a -> exists b, get_base (heap s) a = Some b /\ b_unwrapped b = true) ->
  validate_shapes n O order R s = (r, s') -> s' = s.
Proof.
  intros D H. change s' with (snd (r, s')). rewrite <- H. apply (bind_same s).
  - now apply validate_fragments_same.
  - intros x. apply bind_same; [apply validate_exts_same|]. intros ok. now destruct (fst x && ok).
Qed.

(** * C54 *)

Section Cache.
Variable n : nat.
Variable O : oracle.
Variable h0 : list cell.
Hypothesis W : wf_heap h0.
Hypothesis U : ids_unique h0.
Hypothesis NR : no_rec h0.

(** Where an entry of the cache comes from. *)
Definition cached (sf : st) (e : Z * addr) : Prop :=
  exists t b si sj, get_base h0 t = Some b /\ b_unwrapped b = false /\ b_id b = fst e /\ grown h0 si
    /\ unwrapped_copy n t si (snd e) sj /\ exists y, heap sf = heap sj ++ y.
Definition all_cached (s : st) (c : cache) : Prop := forall k us, In (k, us) c -> cached s (k, us).

Lemma cached_grows s s' e : (exists y, heap s' = heap s ++ y) -> cached s e -> cached s' e.
Proof.
  intros (y & Y) (t & b & si & sj & A & B & C & D & E & y' & Y'). exists t, b, si, sj.
  repeat (split; [assumption|]). exists (y' ++ y). now rewrite Y, Y', app_assoc.
Qed.
Lemma all_grows s s' c : (exists y, heap s' = heap s ++ y) -> all_cached s c -> all_cached s' c.
Proof. intros Y C k us I. eapply cached_grows; eauto. Qed.

Definition fills (m : cache -> M (bool * cache)) : Prop :=
  (forall c, adds h0 (m c)) /\
  forall c s ok c' s', grown h0 s -> all_cached s c -> m c s = (Ok (ok, c'), s') -> all_cached s' c'.

Lemma adds_run {A} (m : M A) s r s' : adds h0 m -> grown h0 s -> m s = (r, s') -> grown h0 s' /\ exists y, heap s' = heap s ++ y.
Proof.
  intros H G E. split.
  - change s' with (snd (r, s')). rewrite <- E. apply (grown_adds h0 m s H G).
  - destruct (H s G) as (y & Y). exists y. unfold after in Y. now rewrite E in Y.
Qed.

Lemma val_unwrap_cached a c s us c' s' : old h0 a -> grown h0 s -> all_cached s c ->
  val_unwrap n a c s = (Ok (us, c'), s') -> all_cached s' c'.
Proof.
  intros Oa G C H. destruct (adds_run _ _ _ _ (adds_val_unwrap h0 W U NR n a c Oa) G H) as (G' & Y).
  unfold val_unwrap in H.
  apply bind_inv in H. destruct H as (b & s0 & E & H). apply rd_ok in E. destruct E as [-> E].
  destruct (b_unwrapped b) eqn:Q; [injection H as <- <- <-; auto|].
  apply bind_inv in H. destruct H as (a1 & s1 & E1 & H). apply bind_inv in H. destruct H as (u & s2 & E2 & H).
  apply bind_inv in H. destruct H as (o & s3 & E3 & H). apply bind_inv in H. destruct H as (b' & s4 & E4 & H).
  apply rd_ok in E4. destruct E4 as [-> E4]. injection H as <- <- <-.
  destruct Oa as (b0 & Eb0).
  assert (Eb : get_base (heap s) a = Some b0).
  { destruct G as (x & Gx). rewrite get_base_nth in *. rewrite Gx. rewrite nth_error_app1; eauto using nth_error_lt. }
  replace b0 with b in * by congruence.
  intros k v [K|I]; [|exact (all_grows _ _ _ Y C k v I)].
  injection K as <- <-. exists a, b, s, s3. split; auto. split; auto.
  split.
  { destruct (clone_isomorphic_in _ _ _ _ _ _ W U G (ex_intro _ b Eb0) E1) as (ph & P & _ & _ & PQ).
    destruct (PQ _ _ P) as (_ & bx & by_ & X1 & X2 & X3 & _). replace bx with b in * by congruence.
    assert (L : labels s1 s3).
    { eapply labels_trans; [eapply labels_run; [|exact E2]; apply unwrap_lab|eapply labels_run; [|exact E3]; apply mark_lab]. }
    destruct (labels_base _ _ _ _ L X2) as (bz & Z1 & Z2 & _). destruct X3 as (X3 & _). simpl. congruence. }
  split; auto. split; [exists a1, s1, s2, o; auto|]. exists []. now rewrite app_nil_r.
Qed.

Lemma try_inv {A} (m : M A) s o s' : try m s = (Ok o, s') ->
  (exists x, o = Some x /\ m s = (Ok x, s')) \/ (o = None /\ m s = (Err, s')).
Proof. unfold try. destruct (m s) as [[x| | |] s1]; intros H; inversion H; subst; eauto. Qed.

Lemma fills_type a : old h0 a -> fills (validate_type n O a).
Proof.
  intros Oa. split; [intros; now apply adds_validate_type|].
  intros c s ok c' s' G C H. unfold validate_type in H. apply bind_inv in H. destruct H as (r & s1 & E & H).
  assert (T : adds h0 (try (val_unwrap n a c))) by now apply adds_try, adds_val_unwrap.
  destruct (adds_run _ _ _ _ T G E) as (G1 & Y1).
  destruct (try_inv _ _ _ _ E) as [([us c1] & -> & E')|[-> E']].
  - apply bind_inv in H. destruct H as (k & s2 & E2 & H). injection H as _ <- <-.
    assert (T2 : adds h0 (try (check_type n O us))) by apply adds_try, adds_check.
    destruct (adds_run _ _ _ _ T2 G1 E2) as (_ & Y2). eapply all_grows; [exact Y2|]. exact (val_unwrap_cached a c s us c1 s1 Oa G C E').
  - injection H as _ <- <-. eapply all_grows; eauto.
Qed.
Lemma fills_seq (m k : cache -> M (bool * cache)) : fills m -> fills k ->
  fills (fun c => bind (m c) (fun r => bind (k (snd r)) (fun r' => ret (fst r && fst r', snd r')))).
Proof.
  intros [A1 M1] [A2 M2]. split.
  - intros c. apply adds_bind; auto. intros. apply adds_bind; auto. intros. apply adds_ret.
  - intros c s ok c' s' G C H. apply bind_inv in H. destruct H as ([ok1 c1] & s1 & E1 & H).
    apply bind_inv in H. destruct H as ([ok2 c2] & s2 & E2 & H). injection H as _ <- <-. simpl in *.
    destruct (adds_run _ _ _ _ (A1 c) G E1) as (G1 & _). eauto.
Qed.
Lemma fills_nop : fills (fun c => ret (true, c)).
Proof. split; [intros; apply adds_ret|]. intros c s ok c' s' G C H. injection H as _ <- <-. auto. Qed.
Lemma fills_panic : fills (fun c => mpanic).
Proof. split; [intros; apply adds_panic|discriminate]. Qed.
Lemma fills_types l : (forall k a, In (k, a) l -> old h0 a) -> fills (validate_types n O l).
Proof.
  induction l as [|[k a] l IH]; intros D; [exact fills_nop|].
  apply (fills_seq (validate_type n O a) (validate_types n O l)).
  - apply fills_type. eapply D. left. reflexivity.
  - apply IH. intros. eapply D. right. eauto.
Qed.

Variable R : raml.
Hypothesis D : declared_ok h0 R.

Lemma fills_fragment loc f : In (loc, f) (r_frags R) -> fills (validate_fragment n O (r_libs R) f).
Proof.
  intros If. destruct f as [l|uses [a|]|]; simpl; try exact fills_panic; try exact fills_nop.
  - unfold validate_fragment. destruct (nth_error (r_libs R) l) as [lib|] eqn:E; [|exact fills_panic]. apply nth_error_In in E.
    apply (fills_seq (validate_types n O (l_annots lib)) (validate_types n O (l_types lib))); apply fills_types; intros k a I; apply D;
      [eapply dc_annot|eapply dc_type]; eauto.
  - apply fills_type. apply D. eapply dc_data; eauto.
Qed.
Lemma fills_fragments order : fills (validate_fragments n O R order).
Proof.
  induction order as [|k order IH]; [exact fills_nop|]. simpl.
  destruct (oget k (r_frags R)) as [f|] eqn:E; [|exact IH].
  apply (fills_seq (validate_fragment n O (r_libs R) f) (validate_fragments n O R order)); auto.
  eapply fills_fragment, oget_In; eauto.
Qed.
End Cache.

Lemma cm_get_In k c us : cm_get k c = Some us -> In (k, us) c.
Proof.
  induction c as [|[k' u] c IH]; simpl; [discriminate|]. destruct (Z.eqb_spec k k') as [->|N]; auto.
  intros [= ->]. auto.
Qed.

Lemma validate_exts_ok n O l c s s' : validate_exts n O l c s = (Ok true, s') ->
  forall e, In e l -> fst (validate_ext n O e c s) = Ok tt.
Proof.
  revert s s'. induction l as [|e l IH]; intros s s' H x I; [easy|]. simpl in H.
  apply bind_inv in H. destruct H as (k & s1 & E & H). apply bind_inv in H. destruct H as (ok & s2 & E2 & H).
  pose proof (validate_ext_same n O e c s) as S1. unfold after in S1.
  destruct (try_inv _ _ _ _ E) as [([] & -> & E')|[-> E']]; rewrite E' in S1; simpl in S1; subst s1.
  - injection H as -> <-. destruct I as [<-|I]; [now rewrite E'|]. eauto.
  - discriminate.
Qed.

Theorem validate_shapes_annotations n O order R s s' :
  wf_heap (heap s) -> ids_unique (heap s) -> no_rec (heap s) -> declared_ok (heap s) R ->
  validate_shapes n O order R s = (Ok tt, s') ->
  forall e, In e (r_exts R) -> (forall a, e_def e = Some a -> exists b, get_base (heap s) a = Some b) ->
  exists db b, e_def e = Some db /\ get_base (heap s) db = Some b
    /\ ((b_unwrapped b = true /\ validate n O (heap s') db (e_value e) = Ok tt)
        \/ b_unwrapped b = false /\ exists us si sj,
             (exists x, heap si = heap s ++ x) /\ unwrapped_copy n db si us sj /\ (exists y, heap s' = heap sj ++ y)
             /\ validate n O (heap s') us (e_value e) = Ok tt).
Proof.
  intros W U NR D H e I V. unfold validate_shapes in H.
  apply bind_inv in H. destruct H as ([ok c] & s1 & E1 & H). apply bind_inv in H. destruct H as (ok2 & s2 & E2 & H). simpl in *.
  destruct ok; [|discriminate]. destruct ok2; [|discriminate]. injection H as <-.
  pose proof (validate_exts_same n O (r_exts R) c s1) as Q. unfold after in Q. rewrite E2 in Q. simpl in Q. subst s2.
  assert (G : grown (heap s) s) by (exists []; now rewrite app_nil_r).
  destruct (fills_fragments n O (heap s) W U NR R D order) as [A F].
  pose proof (F [] s true c s1 G (fun k us (I0 : In (k, us) []) => match I0 with end) E1) as C.
  destruct (adds_run (heap s) _ _ _ _ (A []) G E1) as (_ & Y).
  pose proof (validate_exts_ok _ _ _ _ _ _ E2 _ I) as K. unfold validate_ext in K.
  destruct (e_def e) as [db|]; [|discriminate]. destruct (V db eq_refl) as (b & Eb).
  assert (Eb1 : get_base (heap s1) db = Some b).
  { destruct Y as (y & Y). rewrite get_base_nth in *. rewrite Y. rewrite nth_error_app1; eauto using nth_error_lt. }
  exists db, b. split; auto. split; auto.
  rewrite (bind_ok _ _ _ _ _ (rd_some _ _ _ _ Eb1)) in K.
  destruct (b_unwrapped b) eqn:Q; [left; auto|right; split; auto].
  destruct (cm_get (b_id b) c) as [us|] eqn:Cm; [|discriminate].
  destruct (C _ _ (cm_get_In _ _ _ Cm)) as (t & bt & si & sj & T1 & T2 & T3 & T4 & T5 & T6). simpl in *.
  assert (t = db) by (eapply U; eauto). subst t. exists us, si, sj. auto.
Qed.

(** * C31 *)

Section Every.
Variable n : nat.
Variable O : oracle.
Variable h0 : list cell.
Hypothesis W : wf_heap h0.
Hypothesis U : ids_unique h0.
Hypothesis NR : no_rec h0.

(** [a], or the unwrapped copy of it, was checked in a heap that [s'] extends. *)
Definition was_checked (s' : st) (a : addr) : Prop :=
  exists b us sj, get_base h0 a = Some b
    /\ ((b_unwrapped b = true /\ us = a) \/ (b_unwrapped b = false /\ exists si, grown h0 si /\ unwrapped_copy n a si us sj))
    /\ grown h0 sj /\ (exists y, heap s' = heap sj ++ y)
    /\ check n O (heap sj) us = Ok tt /\ commons n O (heap sj) us = Ok tt.

Lemma was_checked_grows s s' a : (exists y, heap s' = heap s ++ y) -> was_checked s a -> was_checked s' a.
Proof.
  intros (y & Y) (b & us & sj & A & B & C & (y' & Y') & D). exists b, us, sj. repeat (split; [assumption|]). split; [|exact D].
  exists (y' ++ y). now rewrite Y, Y', app_assoc.
Qed.

Lemma validate_type_checked a c s c' s' : old h0 a -> grown h0 s -> validate_type n O a c s = (Ok (true, c'), s') -> was_checked s' a.
Proof.
  intros Oa G H. unfold validate_type in H. apply bind_inv in H. destruct H as (r & s1 & E & H).
  destruct (adds_run h0 _ _ _ _ (adds_try h0 _ (adds_val_unwrap h0 W U NR n a c Oa)) G E) as (G1 & _).
  destruct (try_inv _ _ _ _ E) as [([us c1] & -> & E')|[-> E']]; [|discriminate H].
  apply bind_inv in H. destruct H as (k & s2 & E2 & H). injection H as Hk <- <-.
  destruct (try_inv _ _ _ _ E2) as [([] & -> & E3)|[-> _]]; [|discriminate Hk].
  unfold check_type in E3. destruct (check n O (heap s1) us) as [[]| | |] eqn:Ec; try discriminate E3. injection E3 as Ek <-.
  destruct Oa as (b & Eb).
  assert (Es : get_base (heap s) a = Some b).
  { destruct G as (x & Gx). rewrite get_base_nth in *. rewrite Gx. rewrite nth_error_app1; eauto using nth_error_lt. }
  exists b, us, s1. split; [exact Eb|]. split; [|split; [exact G1|split; [exists []; now rewrite app_nil_r|auto]]].
  unfold val_unwrap in E'. rewrite (bind_ok _ _ _ _ _ (rd_some _ _ _ _ Es)) in E'. destruct (b_unwrapped b); [left; injection E' as <- <- <-; auto|].
  right. split; [reflexivity|]. apply bind_inv in E'. destruct E' as (a1 & t1 & E1 & E'). apply bind_inv in E'. destruct E' as (u & t2 & E4 & E').
  apply bind_inv in E'. destruct E' as (o & t3 & E5 & E'). apply bind_inv in E'. destruct E' as (b' & t4 & E6 & E').
  apply rd_ok in E6. destruct E6 as [-> _]. injection E' as <- <- <-. exists s. split; [exact G|]. exists a1, t1, t2, o. auto.
Qed.

Lemma validate_types_checked l : forall c s c' s', (forall k a, In (k, a) l -> old h0 a) -> grown h0 s ->
  validate_types n O l c s = (Ok (true, c'), s') -> forall k a, In (k, a) l -> was_checked s' a.
Proof.
  induction l as [|[k0 a0] l IH]; intros c s c' s' D G H k a I; [destruct I|]. simpl in H.
  apply bind_inv in H. destruct H as ([ok1 c1] & s1 & E1 & H). apply bind_inv in H. destruct H as ([ok2 c2] & s2 & E2 & H). simpl in *.
  injection H as Hk <- <-. apply andb_prop in Hk. destruct Hk as [-> ->].
  assert (O0 : old h0 a0) by (eapply D; left; reflexivity).
  destruct (adds_run h0 _ _ _ _ (adds_validate_type h0 W U NR n O a0 c O0) G E1) as (G1 & _).
  assert (D' : forall k a, In (k, a) l -> old h0 a) by (intros; eapply D; right; eauto).
  destruct I as [[= <- <-]|I]; [|exact (IH _ _ _ _ D' G1 E2 _ _ I)].
  destruct (adds_run h0 _ _ _ _ (adds_validate_types h0 W U NR n O l c1 D') G1 E2) as (_ & Y).
  eapply was_checked_grows; [exact Y|]. exact (validate_type_checked _ _ _ _ _ O0 G E1).
Qed.

Variable R : raml.
Hypothesis D : declared_ok h0 R.

Lemma validate_fragments_checked order : forall c s c' s', grown h0 s -> validate_fragments n O R order c s = (Ok (true, c'), s') ->
  forall loc a, In loc order -> declared_in R loc a -> was_checked s' a.
Proof.
  induction order as [|k order IH]; intros c s c' s' G H loc a I J; [destruct I|]. simpl in H.
  destruct (oget k (r_frags R)) as [f|] eqn:Ef.
  - apply bind_inv in H. destruct H as ([ok1 c1] & s1 & E1 & H). apply bind_inv in H. destruct H as ([ok2 c2] & s2 & E2 & H). simpl in *.
    injection H as Hk <- <-. apply andb_prop in Hk. destruct Hk as [-> ->].
    pose proof (oget_In _ _ _ Ef) as If.
    destruct (adds_run h0 _ _ _ _ (adds_validate_fragment h0 W U NR R D n O k f c If) G E1) as (G1 & _).
    destruct I as [->|I]; [|exact (IH _ _ _ _ G1 E2 _ _ I J)].
    destruct (adds_run h0 _ _ _ _ (adds_validate_fragments h0 W U NR R D n O order c1) G1 E2) as (_ & Y).
    eapply was_checked_grows; [exact Y|].
    assert (Lib : forall l lib, oget loc (r_frags R) = Some (FLib l) -> nth_error (r_libs R) l = Some lib ->
       forall x, (exists k', has_type lib k' x) \/ (exists k', has_annot lib k' x) -> was_checked s1 x).
    { intros l lib El En x Hx. rewrite Ef in El. injection El as ->. unfold validate_fragment in E1. rewrite En in E1. unfold validate_library in E1.
      apply bind_inv in E1. destruct E1 as ([oka ca] & sa & Ea & E1). apply bind_inv in E1. destruct E1 as ([okb cb] & sb & Eb & E1).
      simpl in *. injection E1 as Hk _ <-. apply andb_prop in Hk. destruct Hk as [-> ->]. pose proof (nth_error_In _ _ En) as In_.
      assert (DA : forall k' y, In (k', y) (l_annots lib) -> old h0 y) by (intros; apply D; eapply dc_annot; eauto).
      assert (DT : forall k' y, In (k', y) (l_types lib) -> old h0 y) by (intros; apply D; eapply dc_type; eauto).
      destruct (adds_run h0 _ _ _ _ (adds_validate_types h0 W U NR n O _ c DA) G Ea) as (Ga & _).
      destruct (adds_run h0 _ _ _ _ (adds_validate_types h0 W U NR n O _ ca DT) Ga Eb) as (_ & Yb).
      destruct Hx as [(k' & Hx)|(k' & Hx)].
      - exact (validate_types_checked _ _ _ _ _ DT Ga Eb _ _ Hx).
      - eapply was_checked_grows; [exact Yb|]. exact (validate_types_checked _ _ _ _ _ DA G Ea _ _ Hx). }
    destruct J as [l lib k' El En Hx|l lib k' El En Hx|uses El]; [eapply Lib; eauto|eapply Lib; eauto|].
    rewrite Ef in El. injection El as ->. simpl in E1. refine (validate_type_checked _ _ _ _ _ _ G E1). apply D. eapply dc_data; eauto.
  - destruct I as [->|I]; [|exact (IH _ _ _ _ G H _ _ I J)].
    destruct J as [l lib k' El|l lib k' El|uses El]; congruence.
Qed.
End Every.

Theorem validate_shapes_every n O order R s s' :
  wf_heap (heap s) -> ids_unique (heap s) -> no_rec (heap s) -> declared_ok (heap s) R ->
  validate_shapes n O order R s = (Ok tt, s') ->
  forall loc a, In loc order -> declared_in R loc a -> was_checked n O (heap s) s' a.
Proof.
  intros W U NR D H loc a I J. unfold validate_shapes in H.
  apply bind_inv in H. destruct H as ([ok c] & s1 & E1 & H). apply bind_inv in H. destruct H as (ok2 & s2 & E2 & H). simpl in *.
  destruct ok; [|discriminate]. destruct ok2; [|discriminate]. injection H as <-.
  pose proof (validate_exts_same n O (r_exts R) c s1) as Q. unfold after in Q. rewrite E2 in Q. simpl in Q. subst s2.
  assert (G : grown (heap s) s) by (exists []; now rewrite app_nil_r).
  eapply validate_fragments_checked; eauto.
Qed.

Theorem resolve_exts_declared R l l' : resolve_exts R l = Ok (true, l') -> Forall2 (resolved R) l l'.
Proof.
  revert l'. induction l as [|e l IH]; intros l' H; simpl in H; [injection H as <-; constructor|].
  destruct (ref_annot R (e_name e) (e_loc e)) as [a| | |] eqn:E; try discriminate H;
    destruct (resolve_exts R l) as [[ok l2]| | |]; try discriminate H.
  injection H as -> <-. constructor; auto. repeat split; auto. exists a. split; auto.
  unfold ref_annot in E. destruct (oget (e_loc e) (r_frags R)) as [[k|uses sh|]|] eqn:F; try discriminate E.
  - destruct (nth_error (r_libs R) k) as [lib|] eqn:N; [|discriminate E]. eapply rf_lib; eauto. now apply lib_reference_iff.
  - apply dt_reference_iff in E. destruct E as (b & x & la & lib & E1 & E2 & E3 & E4 & E5). eapply rf_dt; eauto.
Qed.

(** * C53 *)

Definition indexed (loc k : string) (a : addr) (i : index) : Prop := index_get loc k i = Ok (Some a).

Lemma oget_oset_same {A} k (x : A) m : oget k (oset k x m) = Some x.
Proof.
  induction m as [|[k' y] m IH]; simpl; [now rewrite String.eqb_refl|].
  destruct (String.eqb_spec k k') as [->|N]; simpl; [now rewrite String.eqb_refl|].
  destruct (String.eqb_spec k k'); [congruence|auto].
Qed.
Lemma oget_oset_other {A} k k' (x : A) m : k' <> k -> oget k' (oset k x m) = oget k' m.
Proof.
  intros N. induction m as [|[k2 y] m IH]; simpl.
  - destruct (String.eqb_spec k' k); [congruence|auto].
  - destruct (String.eqb_spec k k2) as [->|N2]; simpl.
    + destruct (String.eqb_spec k' k2); [congruence|auto].
    + destruct (String.eqb_spec k' k2); auto.
Qed.
Lemma indexed_put loc k a i : indexed loc k a (index_put k loc a i).
Proof. unfold indexed, index_get, index_put. now rewrite oget_oset_same, oget_oset_same. Qed.
Lemma indexed_other loc k a i loc' k' a' : (loc, k) <> (loc', k') -> indexed loc k a i -> indexed loc k a (index_put k' loc' a' i).
Proof.
  unfold indexed, index_get, index_put. intros N H.
  destruct (String.string_dec loc loc') as [->|L].
  - rewrite oget_oset_same. destruct (oget loc' i) as [m|]; [|discriminate].
    rewrite oget_oset_other; auto. congruence.
  - rewrite oget_oset_other; auto.
Qed.
Lemma indexed_loc loc k a i loc' k' a' : loc <> loc' -> indexed loc k a i -> indexed loc k a (index_put k' loc' a' i).
Proof. intros N. apply indexed_other. congruence. Qed.

Lemma unwrap_types_other n loc l : forall i s ok l' i' s', unwrap_types n loc l i s = (Ok (ok, l', i'), s') ->
  labels s s' /\ map fst l' = map fst l /\ forall loc' k a, loc' <> loc -> indexed loc' k a i -> indexed loc' k a i'.
Proof.
  induction l as [|[k a] l IH]; intros i s ok l' i' s' H; simpl in H.
  - injection H as <- <- <- <-. split; [apply labels_refl|auto].
  - apply bind_inv in H. destruct H as (r & s1 & E & H).
    assert (L1 : labels s s1).
    { destruct (try_inv _ _ _ _ E) as [(x & _ & E')|[_ E']]; (eapply labels_run; [apply unwrap_lab|exact E']). }
    destruct r as [us|].
    + apply bind_inv in H. destruct H as (ub & s2 & E2 & H). apply rd_ok in E2. destruct E2 as [-> E2].
      apply bind_inv in H. destruct H as ([[ok1 l1] i1] & s3 & E3 & H). injection H as <- <- <- <-.
      destruct (IH _ _ _ _ _ _ E3) as (L2 & K & X). split; [eapply labels_trans; eauto|]. split; [simpl; congruence|].
      intros. apply X; auto. now apply indexed_loc.
    + apply bind_inv in H. destruct H as ([[ok1 l1] i1] & s3 & E3 & H). injection H as <- <- <- <-.
      destruct (IH _ _ _ _ _ _ E3) as (L2 & K & X). split; [eapply labels_trans; eauto|]. split; [simpl; congruence|]. auto.
Qed.

Lemma named_labels s s' l : labels s s' -> named_as s l -> named_as s' l.
Proof.
  intros L N k a I. destruct (N k a I) as (b & E & Q). destruct (labels_base _ _ _ _ L E) as (b' & E' & _ & Q' & _).
  exists b'. split; auto. congruence.
Qed.

Lemma unwrap_types_indexed n loc l : forall i s i' s', unwrap_types n loc l i s = (Ok (true, l, i'), s') ->
  named_as s l -> NoDup (map fst l) ->
  (forall k a, In (k, a) l -> indexed loc k a i')
  /\ forall k a, ~ In k (map fst l) -> indexed loc k a i -> indexed loc k a i'.
Proof.
  induction l as [|[k a] l IH]; intros i s i' s' H N ND; simpl in H.
  - injection H as <- <-. split; [easy|auto].
  - apply bind_inv in H. destruct H as (r & s1 & E & H). destruct r as [us|].
    + apply bind_inv in H. destruct H as (ub & s2 & E2 & H). apply rd_ok in E2. destruct E2 as [-> E2].
      apply bind_inv in H. destruct H as ([[ok1 l1] i1] & s3 & E3 & H). injection H as -> -> -> -> ->.
      destruct (try_inv _ _ _ _ E) as [(x & [= <-] & E')|[? E']]; [|discriminate].
      pose proof (labels_run _ _ _ _ (unwrap_lab _ _ _) E') as L.
      pose proof (named_labels _ _ _ L N) as N1.
      destruct (N1 k a (or_introl eq_refl)) as (b & Eb & Q). replace ub with b in * by congruence. rewrite Q in E3.
      simpl in ND. apply NoDup_cons_iff in ND. destruct ND as [N0 ND].
      destruct (IH _ _ _ _ E3 (fun k0 a0 I => N1 k0 a0 (or_intror I)) ND) as (X1 & X2). split.
      * intros k0 a0 [[= <- <-]|I]; auto. apply X2; auto. apply indexed_put.
      * intros k0 a0 NI Hi. apply X2; [intros I0; apply NI; now right|]. apply indexed_other; auto. intros [= ->]. apply NI. now left.
    + apply bind_inv in H. destruct H as ([[ok1 l1] i1] & s3 & E3 & H). discriminate.
Qed.

Lemma relink_lab a us s : labels s (after (relink a us) s).
Proof.
  intros x c E. unfold after, relink. cbn. rewrite nth_error_map, E. cbn. eexists. split; [reflexivity|].
  destruct c as [| | | |[y|]]; try apply label_same_refl. now destruct (Nat.eqb y a).
Qed.

Lemma unwrap_fragment_other n loc f u s u' s' : unwrap_fragment n loc f u s = (Ok u', s') ->
  labels s s' /\ (u_ok u' = true -> u_ok u = true)
  /\ (forall loc' k a, loc' <> loc -> indexed loc' k a (u_types u) -> indexed loc' k a (u_types u'))
  /\ (forall loc' k a, loc' <> loc -> indexed loc' k a (u_annots u) -> indexed loc' k a (u_annots u'))
  /\ (forall l, f <> FLib l -> nth_error (u_libs u') l = nth_error (u_libs u) l)
  /\ (forall loc', loc' <> loc -> oget loc' (u_frags u') = oget loc' (u_frags u))
  /\ (forall l, f = FLib l -> u_frags u' = u_frags u).
Proof.
  intros H. destruct f as [l|uses [a|]|]; simpl in H.
  - destruct (nth_error (u_libs u) l) as [lib|] eqn:E; [|discriminate].
    apply bind_inv in H. destruct H as ([[ok1 l1] i1] & s1 & E1 & H).
    apply bind_inv in H. destruct H as ([[ok2 l2] i2] & s2 & E2 & H). injection H as <- <-. simpl.
    destruct (unwrap_types_other _ _ _ _ _ _ _ _ _ E1) as (L1 & _ & X1). destruct (unwrap_types_other _ _ _ _ _ _ _ _ _ E2) as (L2 & _ & X2).
    split; [eapply labels_trans; eauto|]. split; [destruct (u_ok u); auto|]. repeat (split; [now auto|]).
    split; [|auto]. intros k K. apply nth_error_upd_neq. congruence.
  - apply bind_inv in H. destruct H as (r & s1 & E & H).
    assert (L1 : labels s s1).
    { destruct (try_inv _ _ _ _ E) as [(x & _ & E')|[_ E']]; (eapply labels_run; [apply unwrap_lab|exact E']). }
    destruct r as [us|].
    + apply bind_inv in H. destruct H as ([] & s3 & E3 & H).
      apply bind_inv in H. destruct H as (ub & s2 & E2 & H). apply rd_ok in E2. destruct E2 as [-> E2]. injection H as <- <-. simpl.
      assert (L2 : labels s s3).
      { eapply labels_trans; [exact L1|]. pose proof (relink_lab a us s1) as L2. unfold after in L2. now rewrite E3 in L2. }
      split; [auto|]. split; [auto|]. split; [intros; now apply indexed_loc|]. split; [auto|]. split; [auto|].
      split; [intros; now apply oget_oset_other|discriminate].
    + injection H as <- <-. simpl. repeat (split; [easy|]). easy.
  - injection H as <- <-. simpl. split; [apply labels_refl|]. repeat (split; [easy|]). easy.
  - injection H as <- <-. split; [apply labels_refl|]. repeat (split; [easy|]). easy.
Qed.

Lemma unwrap_fragments_other n order : forall u s u' s', unwrap_fragments n order u s = (Ok u', s') ->
  labels s s' /\ (u_ok u' = true -> u_ok u = true)
  /\ (forall loc k a, ~ In loc order -> indexed loc k a (u_types u) -> indexed loc k a (u_types u'))
  /\ (forall loc k a, ~ In loc order -> indexed loc k a (u_annots u) -> indexed loc k a (u_annots u'))
  /\ (forall l, (forall loc, In loc order -> oget loc (u_frags u) <> Some (FLib l)) -> nth_error (u_libs u') l = nth_error (u_libs u) l)
  /\ (forall loc, ~ In loc order -> oget loc (u_frags u') = oget loc (u_frags u)).
Proof.
  induction order as [|k order IH]; intros u s u' s' H; simpl in H.
  - injection H as <- <-. split; [apply labels_refl|]. repeat (split; [now auto|]). auto.
  - destruct (oget k (u_frags u)) as [f|] eqn:E.
    + apply bind_inv in H. destruct H as (u1 & s1 & E1 & H).
      destruct (unwrap_fragment_other _ _ _ _ _ _ _ E1) as (A1 & A2 & A3 & A4 & A5 & A6 & A7).
      destruct (IH _ _ _ _ H) as (B1 & B2 & B3 & B4 & B5 & B6).
      split; [eapply labels_trans; eauto|]. split; [auto|].
      split; [intros loc x a NI Hi; apply B3; [|apply A3]; auto; intros I; apply NI; [now right|now left]|].
      split; [intros loc x a NI Hi; apply B4; [|apply A4]; auto; intros I; apply NI; [now right|now left]|].
      split.
      * intros l NI. rewrite B5, A5; auto.
        -- intros ->. apply (NI k); [now left|auto].
        -- intros loc I Q. destruct (String.string_dec loc k) as [->|N].
           ++ destruct f as [l0|uses [a|]|].
              ** rewrite (A7 l0 eq_refl) in Q. apply (NI k); [now left|auto].
              ** simpl in E1. apply bind_inv in E1. destruct E1 as (r & s2 & E2 & E1). destruct r as [us|].
                 --- apply bind_inv in E1. destruct E1 as (? & ? & _ & E1). apply bind_inv in E1. destruct E1 as (ub & s3 & _ & E1). injection E1 as <- <-. simpl in Q.
                     rewrite oget_oset_same in Q. discriminate.
                 --- injection E1 as <- <-. simpl in Q. congruence.
              ** injection E1 as <- <-. simpl in Q. congruence.
              ** injection E1 as <- <-. congruence.
           ++ rewrite A6 in Q by auto. apply (NI loc); [now right|auto].
      * intros loc NI. rewrite B6, A6; auto; intros I; apply NI; [now left|now right].
    + destruct (IH _ _ _ _ H) as (B1 & B2 & B3 & B4 & B5 & B6).
      split; [auto|]. split; [auto|].
      split; [intros loc x a NI Hi; apply B3; auto; intros I; apply NI; now right|].
      split; [intros loc x a NI Hi; apply B4; auto; intros I; apply NI; now right|].
      split; [intros l NI; apply B5; intros loc I; apply NI; now right|].
      intros loc NI. apply B6. intros I. apply NI. now right.
Qed.

(** Reaching one fragment in the loop. *)
Lemma unwrap_fragments_at n loc f : forall order u s u' s', unwrap_fragments n order u s = (Ok u', s') ->
  NoDup order -> In loc order -> oget loc (u_frags u) = Some f ->
  exists u1 s1 u2 s2 before after_, order = before ++ loc :: after_ /\
    unwrap_fragments n before u s = (Ok u1, s1) /\ oget loc (u_frags u1) = Some f
    /\ unwrap_fragment n loc f u1 s1 = (Ok u2, s2)
    /\ unwrap_fragments n after_ u2 s2 = (Ok u', s') /\ ~ In loc before /\ ~ In loc after_.
Proof.
  induction order as [|k order IH]; intros u s u' s' H ND I E; [easy|].
  apply NoDup_cons_iff in ND. destruct ND as [N0 ND]. simpl in H.
  destruct (String.string_dec k loc) as [->|N].
  - rewrite E in H. apply bind_inv in H. destruct H as (u2 & s2 & E2 & H).
    exists u, s, u2, s2, [], order. repeat (split; [easy|]). auto.
  - destruct I as [?|I]; [contradiction|].
    destruct (oget k (u_frags u)) as [g|] eqn:Ek.
    + apply bind_inv in H. destruct H as (u0 & s0 & E0 & H).
      destruct (unwrap_fragment_other _ _ _ _ _ _ _ E0) as (_ & _ & _ & _ & _ & A6 & _).
      assert (E' : oget loc (u_frags u0) = Some f) by (rewrite A6; auto).
      destruct (IH _ _ _ _ H ND I E') as (u1 & s1 & u2 & s2 & bf & af & -> & X1 & X2 & X3 & X4 & X5 & X6).
      exists u1, s1, u2, s2, (k :: bf), af. split; auto. split; [simpl; rewrite Ek; now rewrite (bind_ok _ _ _ _ _ E0)|].
      repeat (split; [assumption|]). split; auto. intros [?|?]; auto.
    + destruct (IH _ _ _ _ H ND I E) as (u1 & s1 & u2 & s2 & bf & af & -> & X1 & X2 & X3 & X4 & X5 & X6).
      exists u1, s1, u2, s2, (k :: bf), af. split; auto. split; [simpl; now rewrite Ek|].
      repeat (split; [assumption|]). split; auto. intros [?|?]; auto.
Qed.

Lemma mark_all_lab n l : forall s, pres_at labels s (mark_all n l).
Proof.
  induction l as [|a l IH]; intros s; [apply labels_refl|]. cbn [mark_all].
  pl; eauto using mark_lab.
Qed.
Lemma mark_fragments_lab n L fs order : forall s, pres_at labels s (mark_fragments n order L fs).
Proof.
  induction order as [|k order IH]; intros s; simpl; [apply labels_refl|].
  destruct (oget k fs) as [f|]; auto.
  apply pres_at_bind; [exact labels_trans| |intros; apply IH].
  destruct f as [l|uses [a|]|]; unfold mark_fragment; try apply labels_refl; eauto using mark_all_lab.
  destruct (nth_error L l) as [lib|]; [|apply labels_refl].
  pl; eauto using mark_all_lab.
Qed.
Lemma unwrap_exts_same i l : forall s, after (unwrap_exts i l) s = s.
Proof.
  induction l as [|e l IH]; intros s; simpl; [reflexivity|]. destruct (e_def e) as [db|]; [|reflexivity].
  apply bind_same; [unfold after, rd; now destruct (get_base (heap s) db)|]. intros b. apply bind_same; [apply IH|].
  intros x. now destruct (index_get (b_loc b) (b_name b) i).
Qed.

Lemma unwrap_shapes_inv n o1 o2 R s R' s' : unwrap_shapes n o1 o2 R s = (Ok R', s') ->
  exists u s1, unwrap_fragments n o1 (Ust true (r_libs R) (r_frags R) [] []) (St (heap s) [] (st_nextid s)) = (Ok u, s1)
    /\ u_ok u = true /\ labels s1 s' /\ r_libs R' = u_libs u /\ r_frags R' = u_frags u /\ r_types R' = u_types u /\ r_annots R' = u_annots u.
Proof.
  intros H. unfold unwrap_shapes in H. apply bind_inv in H. destruct H as ([] & s0 & E0 & H). injection E0 as <-.
  apply bind_inv in H. destruct H as (u & s1 & E1 & H). destruct (u_ok u) eqn:Ok; [|discriminate]. simpl in H.
  apply bind_inv in H. destruct H as ([] & s2 & E2 & H). apply bind_inv in H. destruct H as ([ok l] & s3 & E3 & H).
  simpl in H. destruct ok; [|discriminate]. simpl in H. injection H as <- <-.
  exists u, s1. repeat (split; [assumption|]). split; [|easy].
  replace s3 with s2; [eapply labels_run; [apply mark_fragments_lab|exact E2]|].
  pose proof (unwrap_exts_same (u_annots u) (r_exts R) s2) as Q. unfold after in Q. now rewrite E3 in Q.
Qed.

Lemma app_NoDup_inv {A} (l k : list A) x : NoDup (l ++ x :: k) -> forall y, In y l -> y <> x.
Proof.
  intros H y I ->. apply NoDup_remove_2 in H. apply H. apply in_or_app. now left.
Qed.

(** The library at [loc] keeps its types, if its types are not replaced by
    others. *)
Theorem unwrap_shapes_indexed n o1 o2 R s R' s' loc l lib :
  unwrap_shapes n o1 o2 R s = (Ok R', s') -> NoDup o1 -> In loc o1 ->
  oget loc (r_frags R) = Some (FLib l) -> nth_error (r_libs R) l = Some lib ->
  (forall loc', oget loc' (r_frags R) = Some (FLib l) -> loc' = loc) ->
  NoDup (map fst (l_types lib)) -> NoDup (map fst (l_annots lib)) ->
  named_as s (l_types lib) -> named_as s (l_annots lib) ->
  nth_error (r_libs R') l = Some lib ->
  (forall k a, In (k, a) (l_types lib) -> index_get loc k (r_types R') = Ok (Some a))
  /\ (forall k a, In (k, a) (l_annots lib) -> index_get loc k (r_annots R') = Ok (Some a)).
Proof.
  intros H ND I F L Inj NT NA MT MA L'.
  destruct (unwrap_shapes_inv _ _ _ _ _ _ _ H) as (u & s1 & E & Okk & LB & QL & QF & -> & ->). rewrite QL in L'.
  destruct (unwrap_fragments_at n loc (FLib l) _ _ _ _ _ E ND I F) as (u1 & s2 & u2 & s3 & bf & af & -> & E1 & F1 & E2 & E3 & NB & NF).
  destruct (unwrap_fragments_other _ _ _ _ _ _ E1) as (B1 & B2 & B3 & B4 & B5 & B6).
  destruct (unwrap_fragments_other _ _ _ _ _ _ E3) as (C1 & C2 & C3 & C4 & C5 & C6).
  destruct (unwrap_fragment_other _ _ _ _ _ _ _ E2) as (A1 & A2 & A3 & A4 & A5 & A6 & A7).
  assert (L1 : nth_error (u_libs u1) l = Some lib).
  { rewrite B5; auto. intros loc' I' Q. apply Inj in Q. congruence. }
  assert (G : forall bf u0 s0 u3 s4, unwrap_fragments n bf u0 s0 = (Ok u3, s4) -> forall loc', oget loc' (u_frags u3) = Some (FLib l) -> oget loc' (u_frags u0) = Some (FLib l)).
  { clear. induction bf as [|k bf IH]; intros u0 s0 u3 s4 H loc' Q; simpl in H; [injection H as <- <-; auto|].
    destruct (oget k (u_frags u0)) as [f|] eqn:Ek; [|eauto].
    apply bind_inv in H. destruct H as (u1 & s1 & E1 & H). specialize (IH _ _ _ _ H _ Q).
    destruct (unwrap_fragment_other _ _ _ _ _ _ _ E1) as (_ & _ & _ & _ & _ & A6 & A7).
    destruct (String.string_dec loc' k) as [->|N]; [|now rewrite <- A6].
    destruct f as [l0|uses [a|]|].
    - now rewrite <- (A7 _ eq_refl).
    - simpl in E1. apply bind_inv in E1. destruct E1 as (r & s2 & E2 & E1). destruct r as [us|].
      + apply bind_inv in E1. destruct E1 as (? & ? & _ & E1). apply bind_inv in E1. destruct E1 as (ub & s3 & _ & E1). injection E1 as <- <-. simpl in IH.
        rewrite oget_oset_same in IH. discriminate.
      + injection E1 as <- <-. auto.
    - injection E1 as <- <-. auto.
    - injection E1 as <- <-. auto. }
  assert (L2 : nth_error (u_libs u2) l = Some lib).
  { rewrite <- C5; auto. intros loc' I' Q. rewrite (A7 l eq_refl) in Q. apply (G _ _ _ _ _ E1) in Q. apply Inj in Q. congruence. }
  pose proof (C2 Okk) as Ok2.
  unfold unwrap_fragment in E2. rewrite L1 in E2.
  apply bind_inv in E2. destruct E2 as ([[ok1 l1] i1] & s5 & X1 & E2).
  apply bind_inv in E2. destruct E2 as ([[ok2 l2] i2] & s6 & X2 & E2). injection E2 as <- <-. simpl in *.
  rewrite (nth_error_upd_eq _ _ _ _ L1) in L2. injection L2 as Q. destruct lib as [ty an us]. simpl in *.
  injection Q as -> ->.
  apply andb_prop in Ok2. destruct Ok2 as [Ok2 ->]. apply andb_prop in Ok2. destruct Ok2 as [_ ->].
  pose proof (named_labels _ _ _ B1 (MA : named_as (St (heap s) [] (st_nextid s)) _)) as MA1.
  pose proof (named_labels _ _ _ B1 (MT : named_as (St (heap s) [] (st_nextid s)) _)) as MT1.
  destruct (unwrap_types_other _ _ _ _ _ _ _ _ _ X1) as (D1 & _ & _).
  destruct (unwrap_types_indexed _ _ _ _ _ _ _ X1 MA1 NA) as (Y1 & _).
  destruct (unwrap_types_indexed _ _ _ _ _ _ _ X2 (named_labels _ _ _ D1 MT1) NT) as (Y2 & _).
  split; intros k a Ia; [apply C3|apply C4]; auto.
Qed.

Theorem unwrap_shapes_data n o1 o2 R s R' s' loc uses us :
  unwrap_shapes n o1 o2 R s = (Ok R', s') -> NoDup o1 -> In loc o1 ->
  oget loc (r_frags R') = Some (FDT uses (Some us)) ->
  exists b, get_base (heap s') us = Some b /\ index_get loc (b_name b) (r_types R') = Ok (Some us).
Proof.
  intros H ND I F.
  destruct (unwrap_shapes_inv _ _ _ _ _ _ _ H) as (u & s1 & E & Okk & LB & _ & QF & -> & _). rewrite QF in F.
  assert (X : exists f, oget loc (r_frags R) = Some f).
  { destruct (oget loc (r_frags R)) as [f|] eqn:Q; eauto. exfalso.
    assert (G : forall o u0 s0 u3 s4, unwrap_fragments n o u0 s0 = (Ok u3, s4) -> oget loc (u_frags u0) = None -> oget loc (u_frags u3) = None).
    { clear. induction o as [|k o IH]; intros u0 s0 u3 s4 H Q; simpl in H; [injection H as <- <-; auto|].
      destruct (oget k (u_frags u0)) as [f|] eqn:Ek; [|eauto].
      apply bind_inv in H. destruct H as (u1 & s1 & E1 & H). eapply IH; eauto.
      destruct (unwrap_fragment_other _ _ _ _ _ _ _ E1) as (_ & _ & _ & _ & _ & A6 & _). rewrite A6; auto. congruence. }
    specialize (G _ _ _ _ _ E Q). congruence. }
  destruct X as (f & Ff).
  destruct (unwrap_fragments_at n loc f _ _ _ _ _ E ND I Ff) as (u1 & s2 & u2 & s3 & bf & af & -> & E1 & F1 & E2 & E3 & NB & NF).
  destruct (unwrap_fragments_other _ _ _ _ _ _ E3) as (C1 & C2 & C3 & C4 & C5 & C6). rewrite C6 in F by auto.
  destruct f as [l|uses' [a|]|].
  - destruct (unwrap_fragment_other _ _ _ _ _ _ _ E2) as (_ & _ & _ & _ & _ & _ & A7). rewrite (A7 l eq_refl) in F. congruence.
  - simpl in E2. apply bind_inv in E2. destruct E2 as (r & s4 & E2 & E4). destruct r as [us'|].
    + apply bind_inv in E4. destruct E4 as ([] & s6 & _ & E4). apply bind_inv in E4. destruct E4 as (ub & s5 & E5 & E4). apply rd_ok in E5. destruct E5 as [-> E5].
      injection E4 as <- <-. simpl in *. rewrite oget_oset_same in F. injection F as -> ->.
      destruct (labels_base _ _ _ _ (labels_trans _ _ _ C1 LB) E5) as (b & Eb & _ & Q & _).
      exists b. split; auto. rewrite Q. apply C3; auto. apply indexed_put.
    + injection E4 as <- <-. specialize (C2 Okk). discriminate.
  - injection E2 as <- <-. specialize (C2 Okk). discriminate.
  - injection E2 as <- <-. congruence.
Qed.
