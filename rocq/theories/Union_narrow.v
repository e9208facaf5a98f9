(** A union that inherits from a union, both with scalar members (C51). *)
From Coq Require Import ZArith List String Bool Lia.
From Verif Require Import Base Scalars Spec_Scalars Scalars_proofs Heap Heap_lemmas Clone_proofs Spec_Validate Validate_proofs
  Spec_Narrow Spec_Region Spec_Subtype Subtype_proofs.
Import ListNotations.
Open Scope string_scope.
Open Scope list_scope.
Open Scope nat_scope.

Lemma Forall2_in_r {A B} (R : A -> B -> Prop) l l' y : Forall2 R l l' -> In y l' -> exists x, In x l /\ R x y.
Proof. induction 1; simpl; [tauto|]. intros [->|I]; [eauto|]. destruct (IHForall2 I) as (z & Iz & Rz). eauto. Qed.
Lemma Forall2_in_l {A B} (R : A -> B -> Prop) l l' x : Forall2 R l l' -> In x l -> exists y, In y l' /\ R x y.
Proof. induction 1; simpl; [tauto|]. intros [->|I]; [eauto|]. destruct (IHForall2 I) as (z & Iz & Rz). eauto. Qed.

Lemma Forall2_impl {A B} (R Q : A -> B -> Prop) l l' : (forall x y, R x y -> Q x y) -> Forall2 R l l' -> Forall2 Q l l'.
Proof. intros H. induction 1; constructor; auto. Qed.

Section Narrow.
Variable pat : string.
Variable fmt : option string.

(** Everything that existed is still there as it was. *)
Definition kept (s s' : Heap.st) : Prop :=
  (forall x b, get_base (heap s) x = Some b -> get_base (heap s') x = Some b)
  /\ forall x l, get_slice (heap s) x = Some l -> get_slice (heap s') x = Some l.
Lemma kept_refl s : kept s s.
Proof. split; auto. Qed.
Lemma kept_trans s1 s2 s3 : kept s1 s2 -> kept s2 s3 -> kept s1 s3.
Proof. intros [A B] [C D]. split; auto. Qed.

Lemma clone_plain n a s c s' b sh : clone_detached n a s = (Ok c, s') -> get_base (heap s) a = Some b ->
  b_shape b = Some sh -> plain pat fmt sh ->
  get_base (heap s) c = None /\ kept s s' /\ exists cb, get_base (heap s') c = Some cb /\ b_shape cb = Some sh.
Proof.
  intros H G Sh P. pose proof (extends_after _ _ _ _ (clone_detached_ext n a s) H) as X.
  assert (K : kept s s').
  { destruct X as ((x & E) & _). split; intros y z; unfold get_base, get_slice; rewrite E; intros Y;
      (rewrite nth_error_app1; [exact Y|]); apply nth_error_Some; intros Q; rewrite Q in Y; discriminate. }
  unfold clone_detached in H. apply bind_inv in H. destruct H as ([c0 cm] & s1 & H & R). injection R as <- <-. simpl.
  destruct n as [|n]; [discriminate|]. cbn [clone] in H.
  rewrite (bind_ok _ _ _ _ _ (rd_some _ _ _ _ G)) in H. cbn [cm_get] in H.
  apply bind_inv in H. destruct H as (c & s2 & H1 & H). unfold alloc in H1. injection H1 as <- <-.
  assert (L2 : List.length (heap s) < List.length (heap (St (heap s ++ [CBase b]) (st_shapes s) (st_nextid s)))).
  { simpl. rewrite app_length. simpl. lia. }
  remember (List.length (heap s)) as c eqn:Ec. remember (St (heap s ++ [CBase b]) (st_shapes s) (st_nextid s)) as s2 eqn:E2.
  assert (Lg : forall (A : Type) (m : M A) s3 r s4, pres_at extends s3 m -> m s3 = (Ok r, s4) -> c < List.length (heap s3) -> c < List.length (heap s4)).
  { intros A m s3 r s4 Pm Hm L. destruct (extends_after _ _ _ _ Pm Hm) as ((y & E) & _). rewrite E, app_length. lia. }
  apply bind_inv in H. destruct H as (fm & s3 & H1 & H). apply rd_ok in H1. destruct H1 as [-> _].
  apply bind_inv in H. destruct H as (fd & s3 & H1 & H). apply rd_ok in H1. destruct H1 as [-> _].
  apply bind_inv in H. destruct H as (rd0 & s3 & H1 & H).
  apply Lg in H1; [|apply clone_props_ext; intros; apply clone_ext|exact L2].
  apply bind_inv in H. destruct H as (ra & s4 & H2 & H).
  apply Lg in H2; [|apply clone_opt_ext; intros; apply clone_ext|exact H1].
  apply bind_inv in H. destruct H as (inh & s5 & H3 & H). apply rd_ok in H3. destruct H3 as [-> _].
  apply bind_inv in H. destruct H as (ri & s5 & H3 & H).
  apply Lg in H3; [|apply clone_list_ext; intros; apply clone_ext|exact H2].
  apply bind_inv in H. destruct H as (rl & s6 & H4 & H).
  assert (L6 : c < List.length (heap s6)).
  { destruct (b_link b) as [l|]; [|injection H4 as _ <-; exact H3].
    apply bind_inv in H4. destruct H4 as (d & s7 & H5 & H4). apply rd_ok in H5. destruct H5 as [-> _].
    destruct d as [ds|]; [|discriminate].
    apply bind_inv in H4. destruct H4 as (r & s7 & H5 & H4). apply Lg in H5; [|apply clone_ext|exact H3].
    apply bind_inv in H4. destruct H4 as (l' & s8 & H6 & H4). injection H4 as _ <-.
    unfold alloc in H6. injection H6 as _ <-. simpl. rewrite app_length. lia. }
  clear H1 H2 H3 H4. rewrite Sh in H.
  apply bind_inv in H. destruct H as (rs & s7 & Hs & H).
  assert (Rs : fst rs = sh).
  { destruct sh; simpl in P; try contradiction; simpl in Hs; injection Hs as <- _; reflexivity. }
  apply Lg in Hs; [|apply clone_shape_ext; intros; apply clone_ext|exact L6].
  apply bind_inv in H. destruct H as (fm' & s8 & H1 & H). unfold alloc in H1. injection H1 as _ <-.
  apply bind_inv in H. destruct H as (fd' & s8 & H1 & H). unfold alloc in H1. injection H1 as _ <-.
  apply bind_inv in H. destruct H as (inh' & s8 & H1 & H). unfold alloc in H1. injection H1 as _ <-.
  apply bind_inv in H. destruct H as ([] & s8 & Hw & H). injection H as <- _ <-.
  split. { unfold get_base. assert (E : nth_error (heap s) c = None) by (apply nth_error_None; lia). now rewrite E. }
  split; auto. unfold Heap.write in Hw. injection Hw as <-. cbn [heap].
  eexists. split; [apply get_base_nth; apply nth_error_upd_lt; cbn [heap]; rewrite !app_length; lia|]. cbn [b_shape]. now rewrite Rs.
Qed.

(** Types of what exists, also when an inheritance fails. *)
Definition typed (s s' : Heap.st) : Prop :=
  forall x b, get_base (heap s) x = Some b -> exists b', get_base (heap s') x = Some b' /\ b_type b' = b_type b.
Lemma typed_trans s1 s2 s3 : typed s1 s2 -> typed s2 s3 -> typed s1 s3.
Proof. intros A B x b G. destruct (A x b G) as (b' & G' & T). destruct (B x b' G') as (b'' & G'' & T'). exists b''. split; congruence. Qed.
Lemma typed_refl s : typed s s.
Proof. intros x b G. eauto. Qed.
Definition keeps_types {A} (m : M A) : Prop := forall s r s', m s = (r, s') -> typed s s'.
Lemma kt_bind {A B} (m : M A) (k : A -> M B) : keeps_types m -> (forall x, keeps_types (k x)) -> keeps_types (bind m k).
Proof.
  intros Hm Hk s r s' H. unfold bind in H. destruct (m s) as [[x| | |] s1] eqn:E; try (injection H as _ <-; eapply Hm; exact E).
  eapply typed_trans; [eapply Hm; exact E|eapply Hk; exact H].
Qed.
Lemma kt_same {A} (m : M A) : (forall s, snd (m s) = s) -> keeps_types m.
Proof. intros H s r s' E. pose proof (H s) as K. rewrite E in K. simpl in K. subst. apply typed_refl. Qed.
Lemma kt_rd {A} (f : list cell -> addr -> option A) a : keeps_types (rd f a).
Proof. apply kt_same. intros s. unfold rd. now destruct (f (heap s) a). Qed.
Lemma kt_upd a f : (forall b, b_type (f b) = b_type b) -> keeps_types (upd_base a f).
Proof.
  intros Hf s r s' H. unfold upd_base, bind in H. destruct (rd get_base a s) as [[b| | |] s1] eqn:E.
  - apply rd_ok in E. destruct E as [-> G]. destruct (write_base_eff _ (f b) _ _ tt s' G) as (B & _ & _).
    { unfold Heap.write in *. injection H as _ <-. reflexivity. }
    intros x b0 G0. rewrite B. destruct (Nat.eqb_spec x a) as [->|N]; eauto. rewrite G in G0. injection G0 as <-. eauto.
  - injection H as _ <-. eapply (kt_rd get_base); exact E.
  - injection H as _ <-. eapply (kt_rd get_base); exact E.
  - injection H as _ <-. eapply (kt_rd get_base); exact E.
Qed.

Lemma scalar_typed n t src s r s' tb sb tsh ssh : inherit n t src s = (r, s') -> t <> src ->
  get_base (heap s) t = Some tb -> get_base (heap s) src = Some sb -> b_shape tb = Some tsh -> b_shape sb = Some ssh ->
  plain pat fmt tsh -> plain pat fmt ssh -> typed s s'.
Proof.
  intros H N T S St Ss Pt Ps. destruct n as [|n]; [injection H as _ <-; apply typed_refl|]. cbn [inherit] in H. unfold inherit_body in H.
  rewrite (bind_ok _ _ _ _ _ (rd_some _ _ _ _ S)) in H. destruct (b_visited sb); [injection H as _ <-; apply typed_refl|].
  unfold bind at 1 in H. destruct (upd_base src (set_visited true) s) as [r1 s1] eqn:U.
  assert (T1 : typed s s1) by (eapply kt_upd; [|exact U]; reflexivity).
  destruct r1 as [[]| | |]; try (injection H as _ <-; exact T1).
  apply (typed_trans _ _ _ T1). clear T1.
  apply upd_base_eff in U. destruct U as (sb' & S' & B1 & _).
  assert (G1 : get_base (heap s1) t = Some tb). { rewrite B1. destruct (Nat.eqb_spec t src); [contradiction|auto]. }
  rewrite (bind_ok _ _ _ _ _ (rd_some _ _ _ _ G1)) in H. revert H. 
  match goal with |- ?m s1 = _ -> _ => assert (K : keeps_types m); [|intros H; exact (K _ _ _ H)] end.
  apply kt_bind. { destruct (b_desc tb); [apply kt_same; reflexivity|apply kt_upd; reflexivity]. }
  intros _ s2 r2 s3 H. unfold bind at 1 in H. destruct (rd get_facets (b_facets tb) s2) as [[tf| | |] s4] eqn:R.
  2-4: injection H as _ <-; eapply (kt_rd get_facets); exact R.
  apply rd_ok in R. destruct R as [-> R]. revert H.
  unfold bind at 1. destruct (rd get_facets (b_facets sb) s2) as [[sf| | |] s4] eqn:R2.
  2-4: intros H; injection H as _ <-; eapply (kt_rd get_facets); exact R2.
  apply rd_ok in R2. destruct R2 as [-> R2]. unfold bind at 1.
  destruct (Heap.write (b_facets tb) (CFacets (merge_facets tf sf)) s2) as [r3 s4] eqn:W.
  assert (r3 = Ok tt) as -> by (unfold Heap.write in W; injection W as <- _; reflexivity).
  destruct (facets_eff _ _ _ _ _ _ R W) as (B4 & _ & _).
  intros H. apply (typed_trans _ s4). { intros x b G. exists b. now rewrite B4. }
  revert H. match goal with |- ?m s4 = _ -> _ => assert (K : keeps_types m); [|intros H; exact (K _ _ _ H)] end.
  rewrite St, Ss. destruct tsh, ssh; simpl in Pt, Ps; try contradiction; cbn [inherit_shape inherit_scalar];
    (apply kt_bind; [|intros _; apply kt_bind; [apply kt_upd; reflexivity|intros _; apply kt_same; reflexivity]]);
    first [apply kt_same; reflexivity | apply kt_bind; [apply kt_same; reflexivity|intros ?; apply kt_upd; reflexivity]].
Qed.

Definition is_type (h : list cell) (a : addr) (ty : string) : Prop := exists b, get_base h a = Some b /\ b_type b = ty.
Definition member (h : list cell) (a : addr) : Prop :=
  exists b sh, get_base h a = Some b /\ b_shape b = Some sh /\ plain pat fmt sh.
Definition unvisited (h : list cell) (a : addr) : Prop := forall b, get_base h a = Some b -> b_visited b = false.

Lemma member_kept s s' a : kept s s' -> member (heap s) a -> member (heap s') a.
Proof. intros [K _] (b & sh & G & R). exists b, sh. auto. Qed.
Lemma is_type_kept s s' a ty : kept s s' -> is_type (heap s) a ty -> is_type (heap s') a ty.
Proof. intros [K _] (b & G & R). exists b. auto. Qed.
Lemma is_type_typed s s' a ty : typed s s' -> is_type (heap s) a ty -> is_type (heap s') a ty.
Proof. intros K (b & G & R). destruct (K _ _ G) as (b' & G' & R'). exists b'. split; congruence. Qed.
Lemma shape_kept s s' a sh : kept s s' -> shape_at (heap s) a sh -> shape_at (heap s') a sh.
Proof. intros [K _] (b & G & R). exists b. auto. Qed.

Lemma inner_none n rec sm ty tl tys : forall s, Forall2 (is_type (heap s)) tl tys -> ~ In ty tys ->
  union_inner n rec sm ty tl s = (Ok [], s).
Proof.
  revert tys. induction tl as [|a tl IH]; intros tys s F NI; inversion F as [|? ty' ? tys' (b & G & E) F']; subst; [reflexivity|].
  cbn [union_inner]. rewrite (bind_ok _ _ _ _ _ (rd_some _ _ _ _ G)).
  destruct (String.eqb_spec ty (b_type b)) as [->|NE]; [exfalso; apply NI; now left|].
  rewrite (bind_ok _ _ _ _ _ (eq_refl : ret None s = (Ok None, s))).
  rewrite (bind_ok _ _ _ _ _ (IH tys' s F' (fun I => NI (or_intror I)))). reflexivity.
Qed.

(** What one member of the result is made of. *)
Definition made (h : list cell) (tl : list addr) (h' : list cell) (sm c : addr) : Prop :=
  exists tm tsh ssh sh ty, In tm tl /\ is_type h tm ty /\ is_type h sm ty /\ shape_at h tm tsh /\ shape_at h sm ssh
    /\ plain pat fmt tsh /\ plain pat fmt ssh /\ inherit_scalar tsh ssh = Some (Ok sh) /\ shape_at h' c sh.

Lemma inner_made n m sm ty tl tys : forall s f s', Forall2 (is_type (heap s)) tl tys -> NoDup tys ->
  Forall (member (heap s)) tl -> member (heap s) sm -> unvisited (heap s) sm -> is_type (heap s) sm ty ->
  union_inner n (inherit m) sm ty tl s = (Ok f, s') ->
  f = [] \/ kept s s' /\ exists c, f = [c] /\ made (heap s) tl (heap s') sm c.
Proof.
  revert tys. induction tl as [|a tl IH]; intros tys s f s' F ND M Ms V Ty H; inversion F as [|? ty' ? tys' (b & G & E) F']; subst.
  { injection H as <- <-. now left. }
  inversion ND as [|? ? Na ND']; subst. inversion M as [|? ? Ma M']; subst.
  cbn [union_inner] in H. rewrite (bind_ok _ _ _ _ _ (rd_some _ _ _ _ G)) in H.
  destruct (String.eqb_spec ty (b_type b)) as [->|NE].
  - apply bind_inv in H. destruct H as (r & s1 & H1 & H).
    destruct Ma as (b1 & tsh & G1 & Sh & P). rewrite G in G1. injection G1 as <-.
    apply bind_inv in H1. destruct H1 as (cs & s2 & H2 & H1).
    destruct (clone_plain _ _ _ _ _ _ _ H2 G Sh P) as (Nc & K2 & cb & Gc & Sc).
    apply bind_inv in H1. destruct H1 as (i & s3 & H3 & H1). unfold gen_id in H3. injection H3 as <- <-.
    apply bind_inv in H1. destruct H1 as ([] & s4 & H4 & H1). apply upd_base_eff in H4. destruct H4 as (cb' & Gc' & B4 & Fr4 & _).
    cbn [heap] in *. rewrite Gc in Gc'. injection Gc' as <-.
    assert (K4 : kept s s4).
    { split.
      - intros x b0 Gx. rewrite B4. destruct (Nat.eqb_spec x cs) as [->|]; [congruence|]. now apply K2.
      - intros x l Gx. rewrite (fo_slice _ _ _ Fr4). cbn [heap]. now apply K2. }
    assert (G4 : get_base (heap s4) cs = Some (set_id (st_nextid s2 + 1)%Z cb)) by (rewrite B4, Nat.eqb_refl; reflexivity).
    destruct Ms as (sb & ssh & Gs & Ss & Ps). pose proof (V _ Gs) as Vs.
    assert (N : cs <> sm) by congruence.
    unfold try in H1. destruct (inherit m cs sm s4) as [[x| | |] s5] eqn:I; try discriminate H1; injection H1 as <- <-.
    + destruct (scalar_inherit pat fmt _ _ _ _ _ _ _ _ _ _ I N G4 (proj1 K4 _ _ Gs) Sc Ss Vs P Ps) as (-> & Fr & _ & sh & d & Ei & Gr).
      assert (K5 : kept s s5).
      { split.
        - intros y b0 Gy. rewrite (fo_base _ _ _ Fr); [now apply K4|congruence].
        - intros y l Gy. rewrite (fo_slice _ _ _ Fr). now apply K4. }
      assert (F5 : Forall2 (is_type (heap s5)) tl tys') by (eapply Forall2_impl; [|exact F']; intros; eapply is_type_kept; eauto).
      rewrite (bind_ok _ _ _ _ _ (inner_none n (inherit m) sm (b_type b) tl tys' s5 F5 Na)) in H. injection H as <- <-.
      right. split; auto. exists cs. split; auto. exists a, tsh, ssh, sh, (b_type b).
      split; [now left|]. split; [exists b; auto|]. split; auto. split; [exists b; auto|]. split; [exists sb; auto|].
      split; auto. split; auto. split; auto. eexists. split; [exact Gr|reflexivity].
    + assert (T5 : typed s s5).
      { apply (typed_trans _ s4). { intros x b0 Gx. exists b0. split; auto. now apply K4. }
        eapply scalar_typed; [exact I|exact N|exact G4|exact (proj1 K4 _ _ Gs)|exact Sc|exact Ss|exact P|exact Ps]. }
      assert (F5 : Forall2 (is_type (heap s5)) tl tys') by (eapply Forall2_impl; [|exact F']; intros; eapply is_type_typed; eauto).
      rewrite (bind_ok _ _ _ _ _ (inner_none n (inherit m) sm (b_type b) tl tys' s5 F5 Na)) in H. injection H as <- <-. now left.
  - rewrite (bind_ok _ _ _ _ _ (eq_refl : ret None s = (Ok None, s))) in H.
    apply bind_inv in H. destruct H as (r' & s1 & H1 & H). injection H as <- <-.
    destruct (IH tys' s r' s1 F' ND' M' Ms V Ty H1) as [->|(K & c & -> & tm & tsh & ssh & sh & ty0 & I & R)]; [now left|].
    right. split; auto. exists c. split; auto. exists tm, tsh, ssh, sh, ty0. split; [now right|exact R].
Qed.

Lemma outer_made n m tsl tl tys : NoDup tys -> forall sl s f s', get_slice (heap s) tsl = Some tl ->
  Forall2 (is_type (heap s)) tl tys -> Forall (member (heap s)) tl -> Forall (member (heap s)) sl ->
  Forall (unvisited (heap s)) sl ->
  union_outer n (inherit m) tsl sl s = (Ok f, s') ->
  kept s s' /\ Forall2 (made (heap s) tl (heap s')) sl f.
Proof.
  intros ND. induction sl as [|sm sl IH]; intros s f s' G F M Ms V H.
  { injection H as <- <-. split; [apply kept_refl|constructor]. }
  inversion Ms as [|? ? Mm Ms']; subst. inversion V as [|? ? Vm V']; subst.
  pose proof Mm as (sb & ssh & Gs & _ & _).
  cbn [union_outer] in H. rewrite (bind_ok _ _ _ _ _ (rd_some _ _ _ _ Gs)), (bind_ok _ _ _ _ _ (rd_some _ _ _ _ G)) in H.
  apply bind_inv in H. destruct H as (f1 & s1 & H1 & H).
  destruct (inner_made n m sm _ tl tys s f1 s1 F ND M Mm Vm (ex_intro _ sb (conj Gs eq_refl)) H1) as [->|(K & c & -> & Md)]; [discriminate|].
  apply bind_inv in H. destruct H as (f2 & s2 & H2 & H). injection H as <- <-.
  assert (Mk : forall a, member (heap s) a -> member (heap s1) a) by (intros a; apply member_kept; auto).
  assert (Vk : forall a, member (heap s) a -> unvisited (heap s) a -> unvisited (heap s1) a).
  { intros a (b & sh & Gb & _) Va b' Gb'. rewrite (proj1 K _ _ Gb) in Gb'. injection Gb' as <-. now apply Va. }
  destruct (IH s1 f2 s2) as (K2 & Fm); auto.
  - now apply K.
  - eapply Forall2_impl; [|exact F]. intros; eapply is_type_kept; eauto.
  - eapply Forall_impl; [|exact M]. auto.
  - eapply Forall_impl; [|exact Ms']. auto.
  - clear -Vk Ms' V'. induction sl; constructor; inversion Ms'; inversion V'; subst; auto.
  - split; [eapply kept_trans; eauto|]. constructor.
    + destruct Md as (tm & tsh & ssh' & sh & ty & R1 & R2 & R3 & R4 & R5 & R6 & R7 & R8 & R9).
      exists tm, tsh, ssh', sh, ty. repeat (split; [assumption|]). eapply shape_kept; eauto.
    + assert (Back : forall x, member (heap s) x -> (forall ty, is_type (heap s1) x ty -> is_type (heap s) x ty)
          /\ forall sh, shape_at (heap s1) x sh -> shape_at (heap s) x sh).
      { intros x (b & sh & Gb & _). pose proof (proj1 K _ _ Gb) as Gb1. split.
        - intros ty (b' & Gb' & E). rewrite Gb1 in Gb'. injection Gb' as <-. exists b. auto.
        - intros sh' (b' & Gb' & E). rewrite Gb1 in Gb'. injection Gb' as <-. exists b. auto. }
      rewrite Forall_forall in M. clear -Fm Back M Ms'. induction Fm as [|a c la lc R Fm IHF]; constructor.
      * inversion Ms' as [|? ? Ma _]; subst. destruct R as (tm & tsh & ssh' & sh & ty & R1 & R2 & R3 & R4 & R5 & R6 & R7 & R8 & R9).
        exists tm, tsh, ssh', sh, ty. destruct (Back tm (M tm R1)) as [B1 B2]. destruct (Back a Ma) as [B3 B4].
        repeat (split; [auto; fail|]). auto.
      * apply IHF. now inversion Ms'.
Qed.

Theorem unions_combined n t src s r s' ta te sa se tl sl tys :
  t <> src -> shape_at (heap s) t (SUnion ta te) -> shape_at (heap s) src (SUnion sa se) -> unvisited (heap s) src ->
  get_slice (heap s) ta = Some tl -> get_slice (heap s) sa = Some sl -> tl <> [] ->
  Forall2 (is_type (heap s)) tl tys -> NoDup tys ->
  Forall (member (heap s)) tl -> Forall (member (heap s)) sl -> Forall (unvisited (heap s)) sl ->
  inherit n t src s = (Ok r, s') ->
  r = t /\ forall O v, oracle_wf O -> gval_wf v ->
    (valid O (heap s') t v <->
     exists x y ty, In x tl /\ In y sl /\ is_type (heap s) x ty /\ is_type (heap s) y ty
       /\ valid O (heap s) x v /\ valid O (heap s) y v).
Proof.
  intros N (tb & T & St) (sb & S & Ss) V Gt Gs NE F ND M Ms Vs H.
  assert (Op : opening (SUnion ta te) (SUnion sa se)) by (right; do 4 eexists; split; reflexivity).
  destruct (inherit_opened_gen _ _ _ _ _ _ _ _ _ _ H T S N St Ss (V _ S) Op)
    as (m & s1 & s2 & -> & -> & F1 & P1 & S1 & (d & T1) & Run & F3 & P3 & sb2 & S2 & S3).
  split; auto. cbn [inherit_shape] in Run. unfold inherit_union in Run.
  assert (Same : forall x, member (heap s) x -> get_base (heap s1) x = get_base (heap s) x).
  { intros x (b & sh & G & Sh & P). apply (fo_base _ _ _ F1). intros [->| ->].
    - rewrite T in G. injection G as <-. rewrite St in Sh. injection Sh as <-. exact P.
    - rewrite S in G. injection G as <-. rewrite Ss in Sh. injection Sh as <-. exact P. }
  assert (Gt1 : get_slice (heap s1) ta = Some tl) by (now rewrite (fo_slice _ _ _ F1)).
  assert (Gs1 : get_slice (heap s1) sa = Some sl) by (now rewrite (fo_slice _ _ _ F1)).
  rewrite (bind_ok _ _ _ _ _ (rd_some _ _ _ _ Gt1)) in Run.
  destruct tl as [|t0 tl0] eqn:Etl; [contradiction|]. rewrite <- Etl in *. clear NE.
  rewrite (bind_ok _ _ _ _ _ (rd_some _ _ _ _ Gs1)) in Run.
  apply bind_inv in Run. destruct Run as (f & s3 & Hf & Run).
  assert (Mem1 : forall x, member (heap s) x -> member (heap s1) x).
  { intros x Mx. pose proof Mx as (b & sh & G & R). exists b, sh. rewrite Same; auto. }
  assert (Un1 : forall x, member (heap s) x -> unvisited (heap s) x -> unvisited (heap s1) x).
  { intros x Mx Ux b G. rewrite Same in G by auto. auto. }
  assert (Ty1 : forall x ty, member (heap s) x -> is_type (heap s) x ty -> is_type (heap s1) x ty).
  { intros x ty Mx (b & G & E). exists b. rewrite Same; auto. }
  destruct (outer_made m m ta tl tys ND sl s1 f s3) as (K & Fm).
  - exact Gt1.
  - clear -F M Ty1. revert M. induction F as [|x ty l l' R F IH]; intros M; constructor; inversion M; subst; auto.
  - eapply Forall_impl; [|exact M]. auto.
  - eapply Forall_impl; [|exact Ms]. auto.
  - clear -Vs Ms Un1. induction sl; constructor; inversion Ms; inversion Vs; subst; auto.
  - exact Hf.
  - apply bind_inv in Run. destruct Run as (a & s4 & Ha & Run). unfold alloc in Ha. injection Ha as <- <-.
    apply upd_base_eff in Run. destruct Run as (tb4 & T4 & B4 & F4 & _). cbn [heap] in *.
    remember (List.length (heap s3)) as a eqn:Ea.
    assert (App : forall x b, get_base (heap s3) x = Some b -> get_base (heap s3 ++ [CSlice f]) x = Some b).
    { intros x b G. unfold get_base in *. rewrite nth_error_app1; [exact G|]. apply nth_error_Some. intros Q. now rewrite Q in G. }
    assert (Ga : get_slice (heap s') a = Some f).
    { rewrite (fo_slice _ _ _ F3), (fo_slice _ _ _ F4). cbn [heap]. unfold get_slice.
      rewrite nth_error_app2, Ea, Nat.sub_diag by lia. reflexivity. }
    assert (Gt' : shape_at (heap s') t (SUnion a te)).
    { exists (set_shape (Some (SUnion a te)) tb4). split; [|reflexivity].
      rewrite (fo_base _ _ _ F3) by auto. now rewrite B4, Nat.eqb_refl. }
    assert (T3 : get_base (heap s3) t = Some (set_desc d tb)) by now apply K.
    assert (S3' : get_base (heap s3) src = Some (set_visited true sb)) by now apply K.
    assert (Fin : forall c sh, shape_at (heap s3) c sh -> plain pat fmt sh -> shape_at (heap s') c sh).
    { intros c sh (b & G & Sh) P. exists b. split; auto. rewrite (fo_base _ _ _ F3).
      - rewrite B4. destruct (Nat.eqb_spec c t) as [->|]; auto.
        rewrite T3 in G. injection G as <-. cbn in Sh. rewrite St in Sh. injection Sh as <-. contradiction.
      - intros ->. rewrite S3' in G. injection G as <-. cbn in Sh. rewrite Ss in Sh. injection Sh as <-. contradiction. }
    assert (Back : forall x, member (heap s) x -> (forall ty, is_type (heap s1) x ty -> is_type (heap s) x ty)
          /\ forall sh, shape_at (heap s1) x sh -> shape_at (heap s) x sh).
    { intros x Mx. split; intros z (b & G & E); exists b; rewrite Same in G by auto; auto. }
    rewrite Forall_forall in M, Ms.
    assert (Each : forall sm c, In sm sl -> made (heap s1) tl (heap s3) sm c -> exists tm ty, In tm tl /\ is_type (heap s) tm ty
       /\ is_type (heap s) sm ty /\ forall O v, oracle_wf O -> gval_wf v ->
           (valid O (heap s') c v <-> valid O (heap s) tm v /\ valid O (heap s) sm v)).
    { intros sm c Im (tm & tsh & ssh & sh & ty & R1 & R2 & R3 & R4 & R5 & R6 & R7 & R8 & R9). exists tm, ty. split; auto.
      destruct (Back tm (M tm R1)) as [B1 B2]. destruct (Back sm (Ms sm Im)) as [B3 B5]. split; auto. split; auto.
      intros O v HO Hv. destruct (plain_inherit _ _ _ _ _ R6 R7 R8) as [P I].
      rewrite (plain_valid pat fmt O _ c sh v P (Fin _ _ R9 P)).
      rewrite (plain_valid pat fmt O _ tm tsh v R6 (B2 _ R4)), (plain_valid pat fmt O _ sm ssh v R7 (B5 _ R5)).
      exact (I O [] (fun _ _ => False) v HO Hv). }
    intros O v HO Hv. rewrite valid_iff. split.
    + intros (sh & Sh & Acc). rewrite (shape_at_fun _ _ _ _ Sh Gt') in Acc. destruct Acc as (l & c & Gl & Ic & Vc).
      rewrite Ga in Gl. injection Gl as <-.
      destruct (Forall2_in_r _ _ _ _ Fm Ic) as (sm & Im & Md).
      destruct (Each sm c Im Md) as (tm & ty & I1 & I2 & I3 & I4). exists tm, sm, ty. destruct (proj1 (I4 O v HO Hv) Vc). auto 9.
    + intros (x & y & ty & Ix & Iy & Tx & Ty & Vx & Vy).
      destruct (Forall2_in_l _ _ _ _ Fm Iy) as (c & Ic & Md).
      destruct (Each y c Iy Md) as (tm & ty' & I1 & I2 & I3 & I4).
      assert (ty' = ty) as -> by (destruct Ty as (b & G & E), I3 as (b' & G' & E'); congruence).
      assert (tm = x) as ->.
      { clear -F ND I1 Ix I2 Tx. induction F as [|u tu l l' R F IH]; [destruct Ix|]. inversion ND as [|? ? Nu ND']; subst.
        assert (U : forall w, In w l -> is_type (heap s) w ty -> In ty l').
        { clear -F. intros w Iw Tw. induction F as [|u tu l l' R F IH]; [destruct Iw|]. destruct Iw as [->|Iw]; [left|right; auto].
          destruct R as (b & G & E), Tw as (b' & G' & E'); congruence. }
        assert (Hd : is_type (heap s) u ty -> tu = ty) by (intros (b & G & E); destruct R as (b' & G' & E'); congruence).
        destruct I1 as [->|I1], Ix as [->|Ix]; auto.
        - exfalso. apply Nu. rewrite (Hd I2). eapply U; eauto.
        - exfalso. apply Nu. rewrite (Hd Tx). eapply U; eauto. }
      exists (SUnion a te). split; auto. exists f, c. split; auto. split; auto. apply I4; auto.
Qed.
End Narrow.
