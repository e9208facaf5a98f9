(** Proofs that a derived type accepts only values of its parent (C14, C55) and
    that several scalar parents are combined (C58). *)
From Coq Require Import ZArith List String Bool Lia SpecFloat.
From Verif Require Import Base Scalars Spec_Scalars Scalars_proofs Heap Heap_lemmas Spec_Validate Validate_proofs
  Spec_Narrow Spec_Region Spec_Subtype.
Import ListNotations.
Open Scope string_scope.
Open Scope list_scope.
Open Scope nat_scope.

(** * Scalars *)

Lemma plain_inherit pat fmt t s r : plain pat fmt t -> plain pat fmt s -> inherit_scalar t s = Some (Ok r) ->
  plain pat fmt r /\ forall O h P v, oracle_wf O -> gval_wf v ->
    (shape_accepts O h P r v <-> shape_accepts O h P t v /\ shape_accepts O h P s v).
Proof.
  intros Pt Ps H.
  destruct t as [| |a|a|a|a|a|a| | | |a|a|a ea|a| |a], s as [| |b|b|b|b|b|b| | | |b|b|b eb|b| |b];
    simpl in H, Pt, Ps; try discriminate H; try contradiction.
  - injection H as <-. simpl. intuition.
  - destruct (int_inherit a b) as [x| | |] eqn:E; try discriminate. injection H as <-. split; [exact I|].
    intros O h P v HO Hv. simpl. now apply int_inherit_inter.
  - destruct (num_inherit a b) as [x| | |] eqn:E; try discriminate. injection H as <-. destruct Pt as [P1 P2].
    assert (N : forall o, (forall y, o = Some y -> y <> SpecFloat.S754_nan) -> opt_not_nan o).
    { intros o K m Hm. exact (K m Hm). }
    split.
    + simpl. unfold num_inherit in E. destruct Ps as [Q1 Q2].
      destruct (min_inherit SFltb (nf_min a) (nf_min b)) as [mn| | |] eqn:E1; try discriminate.
      simpl in E. destruct (max_inherit SFltb (nf_max a) (nf_max b)) as [mx| | |] eqn:E2; try discriminate.
      simpl in E.
      assert (K1 : mn = nf_min a \/ mn = nf_min b).
      { unfold min_inherit in E1. destruct (nf_min a), (nf_min b); try (destruct (SFltb _ _)); try discriminate; inversion E1; auto. }
      assert (K2 : mx = nf_max a \/ mx = nf_max b).
      { unfold max_inherit in E2. destruct (nf_max a), (nf_max b); try (destruct (SFltb _ _)); try discriminate; inversion E2; auto. }
      destruct (enum_inherit (nf_enum a) (nf_enum b)); try discriminate. simpl in E.
      match type of E with rbind ?z _ = _ => destruct z end; try discriminate. simpl in E. injection E as <-. simpl.
      split; [destruct K1 as [->| ->]|destruct K2 as [->| ->]]; auto.
    + intros O h P v _ _. simpl. apply num_inherit_inter; auto.
  - destruct (str_inherit a b) as [x| | |] eqn:E; try discriminate. injection H as <-. split.
    + simpl. unfold str_inherit in E.
      destruct (min_inherit _ _ _); try discriminate. simpl in E. destruct (max_inherit _ _ _); try discriminate. simpl in E.
      destruct (enum_inherit _ _); try discriminate. simpl in E. injection E as <-. simpl.
      destruct (sf_pat a) eqn:Ea; auto.
    + intros O h P v _ _. simpl. apply str_inherit_inter; auto.
      destruct (sf_pat a) as [p|] eqn:Ea; auto. destruct (sf_pat b) as [q|] eqn:Eb; auto.
      right; right. rewrite (Pt p), (Ps q); auto.
  - destruct (file_inherit a b) as [x| | |] eqn:E; try discriminate. injection H as <-. split; [exact I|].
    intros O h P v _ _. simpl. now apply file_inherit_inter.
  - destruct (bool_inherit a b) as [x| | |] eqn:E; try discriminate. injection H as <-. split; [exact I|].
    intros O h P v _ _. simpl. now apply bool_inherit_inter.
  - destruct (datetime_inherit a b) as [x| | |] eqn:E; try discriminate. injection H as <-. subst a b.
    assert (x = fmt). { destruct fmt as [f|]; simpl in E; [rewrite String.eqb_refl in E|]; congruence. }
    subst x. split; [reflexivity|]. intros. tauto.
  - injection H as <-. simpl. split; [exact I|intros; tauto].
  - injection H as <-. simpl. split; [exact I|intros; tauto].
  - injection H as <-. simpl. split; [exact I|intros; tauto].
Qed.

(** * Values depend on a sealed part of the graph only *)

Lemma oget_In {A} k (l : omap A) v : oget k l = Some v -> In (k, v) l.
Proof.
  induction l as [|[k' x] l IH]; simpl; [discriminate|]. destruct (String.eqb_spec k k') as [->|N]; [intros [= ->]; auto|auto].
Qed.

Lemma props_of_in D h o ps : sealed D h -> opt_in D o -> props_of h o ps -> props_in D ps.
Proof. intros S I [[-> ->]|(m & -> & G)]; [constructor|]. eapply sl_props; eauto. Qed.

Lemma valid_region D O h h' : sealed D h ->
  (forall a sh, D a -> shape_at h a sh -> shape_at h' a sh) ->
  (forall m l, D m -> get_props h m = Some l -> get_props h' m = Some l) ->
  (forall m l, D m -> get_slice h m = Some l -> get_slice h' m = Some l) ->
  forall a v, D a -> valid O h a v -> valid O h' a v.
Proof.
  intros S Hs Hp Hl a v Da V. revert Da.
  refine (V (fun a v => D a -> valid O h' a v) _). clear a v V.
  intros a v (sh & A & Acc) Da. apply valid_iff. exists sh. split; [auto|].
  destruct A as (b & G & Sh). pose proof (sl_base _ _ S _ _ _ Da G Sh) as In_.
  destruct sh as [| |f|f|f|f|f|f| | | |f|f|sl e|f| |hd]; simpl in *; auto.
  - destruct Acc as (l & -> & A1 & A2 & A3 & A4). exists l. split; [reflexivity|]. split; [exact A1|]. split; [exact A2|]. split; [|exact A4].
    intros i x Ei Ix. apply (A3 i x); auto.
  - destruct In_ as [I1 I2]. destruct Acc as (kvs & ps & pps & -> & Q1 & Q2 & A1 & A2 & A3 & A4 & A5).
    pose proof (props_of_in _ _ _ _ S I1 Q1) as In1. pose proof (props_of_in _ _ _ _ S I2 Q2) as In2.
    unfold props_in in *. rewrite Forall_forall in In1, In2.
    assert (T : forall o ps, opt_in D o -> props_of h o ps -> props_of h' o ps).
    { intros o q Io [[-> ->]|(m & -> & G')]; [now left|]. right. exists m. split; auto. }
    exists kvs, ps, pps. split; [reflexivity|]. split; [auto|]. split; [auto|]. split; [exact A1|]. split; [exact A2|]. split; [exact A3|]. split.
    + intros k x p Ik E. apply (A4 k x p Ik E). apply (In1 (k, p)). now apply oget_In.
    + intros k x Ik E. destruct (A5 k x Ik E) as [N [Q|(k' & p & Ip & M & Q)]]; split; auto.
      right. exists k', p. split; auto. split; auto. apply Q. apply (In2 (k', p)). auto.
  - destruct Acc as (l & m & G' & I & Q). exists l, m. split; auto. split; auto. apply Q.
    pose proof (sl_slice _ _ S _ _ In_ G') as F. rewrite Forall_forall in F. auto.
Qed.

(** * Frames *)

(** Outside [N] no base and no property map changes, and no slice does. *)
Record frame_of (N : addr -> Prop) (s s' : st) : Prop := {
  fo_base : forall x, ~ N x -> get_base (heap s') x = get_base (heap s) x;
  fo_props : forall x, ~ N x -> get_props (heap s') x = get_props (heap s) x;
  fo_slice : forall x, get_slice (heap s') x = get_slice (heap s) x
}.
Lemma frame_of_refl N s : frame_of N s s.
Proof. split; auto. Qed.
Lemma frame_of_trans N s1 s2 s3 : frame_of N s1 s2 -> frame_of N s2 s3 -> frame_of N s1 s3.
Proof. intros [A B C] [A' B' C']. split; intros; [rewrite A', A|rewrite B', B|rewrite C', C]; auto. Qed.
Lemma frame_of_mono (N N' : addr -> Prop) s s' : (forall x, N x -> N' x) -> frame_of N s s' -> frame_of N' s s'.
Proof. intros H [A B C]. split; auto. Qed.

Lemma sealed_frame (D N : addr -> Prop) s s' : (forall x, D x -> ~ N x) -> frame_of N s s' -> sealed D (heap s) -> sealed D (heap s').
Proof.
  intros H [A B C] [S1 S2 S3]. split; intros.
  - rewrite A in H1 by auto. eauto.
  - rewrite B in H1 by auto. eauto.
  - rewrite C in H1 by auto. eauto.
Qed.
Lemma shape_in_mono (D D' : addr -> Prop) sh : (forall x, D x -> D' x) -> shape_in D sh -> shape_in D' sh.
Proof. intros H. destruct sh; simpl; unfold opt_in; intuition. Qed.
Lemma sealed_or (D E : addr -> Prop) h : sealed D h -> sealed E h -> sealed (fun x => D x \/ E x) h.
Proof.
  intros [A1 A2 A3] [B1 B2 B3]. split.
  - intros a b sh [K|K] G Sh; eapply shape_in_mono; [|eapply A1|idtac|eapply B1]; eauto.
  - intros m l [K|K] G; eapply Forall_impl; [|eapply A2|idtac|eapply B2]; eauto; simpl; auto.
  - intros m l [K|K] G; eapply Forall_impl; [|eapply A3|idtac|eapply B3]; eauto; simpl; auto.
Qed.
Lemma sealed_ext (D E : addr -> Prop) h : (forall x, D x <-> E x) -> sealed D h -> sealed E h.
Proof.
  intros H [A1 A2 A3]. split.
  - intros a b sh K G Sh. eapply shape_in_mono; [intros x; apply H|]. eapply A1; eauto. now apply H.
  - intros m l K G. eapply Forall_impl; [intros x; apply H|]. eapply A2; eauto. now apply H.
  - intros m l K G. eapply Forall_impl; [intros x; apply H|]. eapply A3; eauto. now apply H.
Qed.
Lemma valid_frame (D N : addr -> Prop) O s s' a v : sealed D (heap s) -> (forall x, D x -> ~ N x) -> frame_of N s s' -> D a ->
  (valid O (heap s) a v <-> valid O (heap s') a v).
Proof.
  intros S H F Da. pose proof (sealed_frame _ _ _ _ H F S) as S'. destruct F as [A B C]. split.
  - apply (valid_region D); auto.
    + intros x sh Dx (b & G & Sh). exists b. rewrite A; auto.
    + intros m l Dm G. rewrite B; auto.
    + intros m l Dm G. rewrite C; auto.
  - apply (valid_region D); auto.
    + intros x sh Dx (b & G & Sh). exists b. rewrite A in G; auto.
    + intros m l Dm G. rewrite B in G; auto.
    + intros m l Dm G. rewrite C in G; auto.
Qed.

(** * Single writes *)

Lemma write_base_eff a b b0 s u s' : get_base (heap s) a = Some b0 -> write a (CBase b) s = (Ok u, s') ->
  (forall x, get_base (heap s') x = if Nat.eqb x a then Some b else get_base (heap s) x)
  /\ frame_of (fun x => x = a) s s' /\ forall x, get_props (heap s') x = get_props (heap s) x.
Proof.
  intros G H. unfold write in H. injection H as <- <-. simpl.
  assert (K : forall x, x <> a -> nth_error (upd a (CBase b) (heap s)) x = nth_error (heap s) x).
  { intros x Nx. apply nth_error_upd_neq. auto. }
  apply get_base_nth in G. assert (Ka : nth_error (upd a (CBase b) (heap s)) a = Some (CBase b)) by (eapply nth_error_upd_eq; exact G).
  assert (Kp : forall x, get_props (upd a (CBase b) (heap s)) x = get_props (heap s) x).
  { intros x. unfold get_props. destruct (Nat.eq_dec x a) as [->|N]; [now rewrite Ka, G|now rewrite K]. }
  split; [|split; [split; simpl|]]; auto.
  - intros x. destruct (Nat.eqb_spec x a) as [->|N]; unfold get_base; [now rewrite Ka|now rewrite K].
  - intros x N. unfold get_base. now rewrite K.
  - intros x. unfold get_slice. destruct (Nat.eq_dec x a) as [->|N]; [now rewrite Ka, G|now rewrite K].
Qed.
Lemma upd_base_eff a f s u s' : upd_base a f s = (Ok u, s') -> exists b, get_base (heap s) a = Some b
  /\ (forall x, get_base (heap s') x = if Nat.eqb x a then Some (f b) else get_base (heap s) x)
  /\ frame_of (fun x => x = a) s s' /\ forall x, get_props (heap s') x = get_props (heap s) x.
Proof.
  intros H. unfold upd_base in H. apply bind_inv in H. destruct H as (b & s1 & H1 & H).
  apply rd_ok in H1. destruct H1 as [-> G]. exists b. split; auto. eapply write_base_eff; eauto.
Qed.
Lemma upd_arr_eff a f x0 s u s' : shape_at (heap s) a (SArray x0) -> upd_arr a f s = (Ok u, s') ->
  shape_at (heap s') a (SArray (f x0)) /\ frame_of (fun x => x = a) s s'
  /\ forall x, get_props (heap s') x = get_props (heap s) x.
Proof.
  intros (b & G & Sh) H. unfold upd_arr in H. rewrite (bind_ok _ _ _ _ _ (rd_some _ _ _ _ G)), Sh in H.
  destruct (write_base_eff _ _ _ _ _ _ G H) as (A & B & C). split; [|auto].
  eexists. rewrite A, Nat.eqb_refl. split; reflexivity.
Qed.
Lemma upd_obj_eff a f x0 s u s' : shape_at (heap s) a (SObject x0) -> upd_obj a f s = (Ok u, s') ->
  shape_at (heap s') a (SObject (f x0)) /\ frame_of (fun x => x = a) s s'
  /\ forall x, get_props (heap s') x = get_props (heap s) x.
Proof.
  intros (b & G & Sh) H. unfold upd_obj in H. rewrite (bind_ok _ _ _ _ _ (rd_some _ _ _ _ G)), Sh in H.
  destruct (write_base_eff _ _ _ _ _ _ G H) as (A & B & C). split; [|auto].
  eexists. rewrite A, Nat.eqb_refl. split; reflexivity.
Qed.
Lemma facets_eff a l l0 s u s' : get_facets (heap s) a = Some l0 -> write a (CFacets l) s = (Ok u, s') ->
  (forall x, get_base (heap s') x = get_base (heap s) x) /\ (forall x, get_props (heap s') x = get_props (heap s) x)
  /\ forall x, get_slice (heap s') x = get_slice (heap s) x.
Proof.
  intros G H. unfold write in H. injection H as <- <-. simpl. apply get_facets_nth in G.
  assert (Ka : nth_error (upd a (CFacets l) (heap s)) a = Some (CFacets l)) by (eapply nth_error_upd_eq; exact G).
  assert (K : forall x, x <> a -> nth_error (upd a (CFacets l) (heap s)) x = nth_error (heap s) x).
  { intros x Nx. apply nth_error_upd_neq. auto. }
  repeat split; intros x; unfold get_base, get_props, get_slice;
    (destruct (Nat.eq_dec x a) as [->|N]; [now rewrite Ka, G|now rewrite K]).
Qed.
Lemma props_set_eff m k p l s u s' : get_props (heap s) m = Some l -> props_set m k p s = (Ok u, s') ->
  get_props (heap s') m = Some (oset k p l) /\ frame_of (fun x => x = m) s s'
  /\ forall x, get_base (heap s') x = get_base (heap s) x.
Proof.
  intros G H. unfold props_set in H. rewrite (bind_ok _ _ _ _ _ (rd_some _ _ _ _ G)) in H.
  unfold write in H. injection H as <- <-. simpl. apply get_props_nth in G.
  assert (Ka : nth_error (upd m (CProps (oset k p l)) (heap s)) m = Some (CProps (oset k p l))) by (eapply nth_error_upd_eq; exact G).
  assert (K : forall x, x <> m -> nth_error (upd m (CProps (oset k p l)) (heap s)) x = nth_error (heap s) x).
  { intros x Nx. apply nth_error_upd_neq. auto. }
  split; [apply get_props_nth; exact Ka|]. 
  assert (B : forall x, get_base (upd m (CProps (oset k p l)) (heap s)) x = get_base (heap s) x).
  { intros x. unfold get_base. destruct (Nat.eq_dec x m) as [->|N]; [now rewrite Ka, G|now rewrite K]. }
  split; [split; simpl|]; auto.
  - intros x N. unfold get_props. now rewrite K.
  - intros x. unfold get_slice. destruct (Nat.eq_dec x m) as [->|N]; [now rewrite Ka, G|now rewrite K].
Qed.

(** * The part of Inherit common to all kinds *)

Definition simple_pair (tsh ssh : shape) : Prop :=
  ssh <> SAny /\ (forall a e, tsh <> SUnion a e) /\ forall a e, ssh <> SUnion a e.

(** Also: a union from a union. *)
Definition opening (tsh ssh : shape) : Prop :=
  simple_pair tsh ssh \/ exists ua ue va ve, tsh = SUnion ua ue /\ ssh = SUnion va ve.

Lemma inherit_opened_gen n t src s r s' tb sb tsh ssh : inherit n t src s = (Ok r, s') ->
  get_base (heap s) t = Some tb -> get_base (heap s) src = Some sb -> t <> src ->
  b_shape tb = Some tsh -> b_shape sb = Some ssh -> b_visited sb = false -> opening tsh ssh ->
  exists m s1 s2, n = S m /\ r = t
    /\ frame_of (fun x => x = t \/ x = src) s s1 /\ (forall x, get_props (heap s1) x = get_props (heap s) x)
    /\ get_base (heap s1) src = Some (set_visited true sb)
    /\ (exists d, get_base (heap s1) t = Some (set_desc d tb))
    /\ inherit_shape m (inherit m) t src tsh ssh s1 = (Ok tt, s2)
    /\ frame_of (fun x => x = src) s2 s' /\ (forall x, get_props (heap s') x = get_props (heap s2) x)
    /\ exists sb2, get_base (heap s2) src = Some sb2 /\ get_base (heap s') src = Some (set_visited false sb2).
Proof.
  intros H T S N Sh1 Sh2 V Op. destruct n as [|m]; [discriminate|]. cbn [inherit] in H. unfold inherit_body in H.
  rewrite (bind_ok _ _ _ _ _ (rd_some _ _ _ _ S)), V in H.
  apply bind_inv in H. destruct H as ([] & s1 & H1 & H). apply upd_base_eff in H1. destruct H1 as (sb' & S' & B1 & F1 & P1).
  rewrite S in S'. injection S' as <-.
  assert (T1 : get_base (heap s1) t = Some tb). { rewrite B1. destruct (Nat.eqb_spec t src); [contradiction|auto]. }
  rewrite (bind_ok _ _ _ _ _ (rd_some _ _ _ _ T1)) in H.
  apply bind_inv in H. destruct H as ([] & s2 & H2 & H).
  assert (X : exists d, get_base (heap s2) t = Some (set_desc d tb) /\ frame_of (fun x => x = t) s1 s2
    /\ forall x, get_props (heap s2) x = get_props (heap s1) x).
  { destruct (b_desc tb) as [d|] eqn:D.
    - injection H2 as <-. exists (Some d). split; [|split; [apply frame_of_refl|auto]]. rewrite T1. f_equal.
      destruct tb; simpl in *. now subst.
    - apply upd_base_eff in H2. destruct H2 as (b' & S' & B2 & F2 & P2). rewrite T1 in S'. injection S' as <-.
      eexists. rewrite B2, Nat.eqb_refl. split; [reflexivity|]. auto. }
  destruct X as (d & T2 & F2 & P2).
  apply bind_inv in H. destruct H as (tfm & s3 & H3 & H). apply rd_ok in H3. destruct H3 as [-> G1].
  apply bind_inv in H. destruct H as (sfm & s3 & H3 & H). apply rd_ok in H3. destruct H3 as [-> G2].
  apply bind_inv in H. destruct H as ([] & s3 & H3 & H).
  destruct (facets_eff _ _ _ _ _ _ G1 H3) as (B3 & P3 & L3).
  assert (F : frame_of (fun x => x = t \/ x = src) s s3).
  { split; intros x.
    - intros NN. rewrite B3, (fo_base _ _ _ F2), (fo_base _ _ _ F1); auto.
    - intros NN. rewrite P3, P2, P1; auto.
    - rewrite L3, (fo_slice _ _ _ F2), (fo_slice _ _ _ F1); auto. }
  assert (Run : bind (inherit_shape m (inherit m) t src tsh ssh) (fun _ => bind (upd_base src (set_visited false)) (fun _ => ret t)) s3 = (Ok r, s')).
  { rewrite Sh1, Sh2 in H. destruct Op as [(NA & NU1 & NU2)|(ua & ue & va & ve & -> & ->)]; [|exact H].
    destruct tsh, ssh; try exact H; exfalso;
      first [now apply NA|now apply (NU1 anyof e)|now apply (NU2 anyof e)|now apply (NU2 anyof e0)]. }
  clear H. apply bind_inv in Run. destruct Run as ([] & s4 & H4 & Run).
  apply bind_inv in Run. destruct Run as ([] & s5 & H5 & Run). injection Run as <- <-.
  apply upd_base_eff in H5. destruct H5 as (sb2 & S2 & B5 & F5 & P5).
  exists m, s3, s4. split; auto. split; auto. split; auto.
  split. { intros x. rewrite P3, P2, P1. auto. }
  split. { rewrite B3, (fo_base _ _ _ F2), B1, Nat.eqb_refl; auto. }
  split. { exists d. now rewrite B3. }
  split; auto. split; auto. split; auto. exists sb2. split; auto. now rewrite B5, Nat.eqb_refl.
Qed.

Lemma inherit_opened n t src s r s' tb sb tsh ssh : inherit n t src s = (Ok r, s') ->
  get_base (heap s) t = Some tb -> get_base (heap s) src = Some sb -> t <> src ->
  b_shape tb = Some tsh -> b_shape sb = Some ssh -> b_visited sb = false -> simple_pair tsh ssh ->
  exists m s1 s2, n = S m /\ r = t
    /\ frame_of (fun x => x = t \/ x = src) s s1 /\ (forall x, get_props (heap s1) x = get_props (heap s) x)
    /\ get_base (heap s1) src = Some (set_visited true sb)
    /\ (exists d, get_base (heap s1) t = Some (set_desc d tb))
    /\ inherit_shape m (inherit m) t src tsh ssh s1 = (Ok tt, s2)
    /\ frame_of (fun x => x = src) s2 s' /\ (forall x, get_props (heap s') x = get_props (heap s2) x)
    /\ exists sb2, get_base (heap s2) src = Some sb2 /\ get_base (heap s') src = Some (set_visited false sb2).
Proof. intros H T S N Sh1 Sh2 V SP. eapply inherit_opened_gen; eauto. now left. Qed.

(** * Pairs of types *)

Scheme fits_mut := Minimality for fits Sort Prop
  with items_mut := Minimality for items_fit Sort Prop
  with props_mut := Minimality for props_fit Sort Prop
  with entries_mut := Minimality for entries_fit Sort Prop.
Combined Scheme fits_all from fits_mut, items_mut, props_mut, entries_mut.

Section Pairs.
Variable pat : string.
Variable fmt : option string.
Variable U : addr -> Prop.

Definition agree_on (h h' : list cell) (vis ns : list addr) : Prop :=
  (forall x, In x ns -> get_base h' x = get_base h x /\ get_props h' x = get_props h x)
  /\ (forall x, U x -> ~ In x vis -> get_base h' x = get_base h x)
  /\ (forall x, U x -> get_props h' x = get_props h x).

Lemma fits_agree_all h h' :
  (forall vis t src ns, fits pat fmt U h vis t src ns -> agree_on h h' vis ns -> fits pat fmt U h' vis t src ns)
  /\ (forall vis i j ns, items_fit pat fmt U h vis i j ns -> agree_on h h' vis ns -> items_fit pat fmt U h' vis i j ns)
  /\ (forall vis i j ns, props_fit pat fmt U h vis i j ns -> agree_on h h' vis ns -> props_fit pat fmt U h' vis i j ns)
  /\ (forall vis l ks ns, entries_fit pat fmt U h vis l ks ns -> agree_on h h' vis ns -> entries_fit pat fmt U h' vis l ks ns).
Proof.
  assert (Node : forall vis ns t src tsh ssh, agree_on h h' vis (t :: ns) -> node h t src tsh ssh -> ~ In src vis -> U src ->
    node h' t src tsh ssh).
  { intros vis ns t src tsh ssh (A1 & A2 & A3) ((b & G & Sh) & sb & Gs & Ss & V) N Us. split.
    - exists b. split; auto. rewrite (proj1 (A1 t (or_introl eq_refl))). auto.
    - exists sb. split; auto. rewrite A2; auto. }
  assert (Weak : forall vis ns ns' x, agree_on h h' vis ns -> (forall y, In y ns' -> In y ns) -> agree_on h h' (x :: vis) ns').
  { intros vis ns ns' x (A1 & A2 & A3) I. split; [|split]; auto. intros y Uy Ny. apply A2; auto. intros K. apply Ny. now right. }
  assert (Weak' : forall vis ns ns', agree_on h h' vis ns -> (forall y, In y ns' -> In y ns) -> agree_on h h' vis ns').
  { intros vis ns ns' (A1 & A2 & A3) I. split; [|split]; auto. }
  apply (fits_all pat fmt U h
    (fun vis t src ns => agree_on h h' vis ns -> fits pat fmt U h' vis t src ns)
    (fun vis i j ns => agree_on h h' vis ns -> items_fit pat fmt U h' vis i j ns)
    (fun vis i j ns => agree_on h h' vis ns -> props_fit pat fmt U h' vis i j ns)
    (fun vis l ks ns => agree_on h h' vis ns -> entries_fit pat fmt U h' vis l ks ns)).
  - intros vis t src tsh ssh Nd Nv Us P1 P2 A. econstructor; eauto.
  - intros vis t src f g ns Nd Nv Us _ IH A. econstructor; eauto. apply IH. eapply Weak; eauto. now right.
  - intros vis t src f g ns Nd Nv Us Q1 Q2 Q3 _ IH A. eapply fits_object; eauto. apply IH. eapply Weak; eauto. now right.
  - intros. constructor.
  - intros. now constructor.
  - intros vis i j ns _ IH A. constructor. auto.
  - intros. constructor.
  - intros. now constructor.
  - intros vis m sm l ks ns G1 G2 Us ND Q NDl _ IH A. apply pf_both with (l := l) (ks := ks); auto.
    + rewrite (proj2 (proj1 A m (or_introl eq_refl))). auto.
    + destruct A as (_ & _ & A3). rewrite A3; auto.
    + apply IH. eapply Weak'; eauto. now right.
  - intros. constructor.
  - intros vis l k sp ks ns E _ IH A. constructor; auto.
  - intros vis l k sp tp ks ns1 ns2 E _ IH1 _ IH2 A. apply ef_old with (tp := tp); auto.
    + apply IH1. eapply Weak'; eauto. intros y Iy. apply in_or_app; auto.
    + apply IH2. eapply Weak'; eauto. intros y Iy. apply in_or_app; auto.
Qed.

Lemma fits_head h vis t src ns : fits pat fmt U h vis t src ns -> In t ns.
Proof. destruct 1; now left. Qed.
Lemma fits_src h vis t src ns : fits pat fmt U h vis t src ns -> U src.
Proof. destruct 1; auto. Qed.

(** What a successful derivation has done. *)
Definition derived (s s' : st) (t src : addr) (ns : list addr) : Prop :=
  frame_of (fun x => In x ns) s s' /\ sealed (fun x => In x ns \/ U x) (heap s')
  /\ forall O v, oracle_wf O -> value_wf v -> valid O (heap s') t v -> valid O (heap s) src v.

Definition ready (s : st) (vis ns : list addr) : Prop :=
  NoDup ns /\ (forall x, In x ns -> ~ U x) /\ sealed U (heap s) /\ forall x, In x vis -> U x.

Section Body.
Variable rec : addr -> addr -> M addr.
Hypothesis Hrec : forall vis t src ns s r s', fits pat fmt U (heap s) vis t src ns -> ready s vis ns ->
  rec t src s = (Ok r, s') -> derived s s' t src ns.

Lemma nodup_app {A} (l l' : list A) : NoDup (l ++ l') -> NoDup l /\ NoDup l' /\ forall x, In x l -> ~ In x l'.
Proof.
  induction l as [|a l IH]; simpl; intros H; [split; [constructor|split; auto]|].
  inversion H as [|? ? N ND]; subst. destruct (IH ND) as (A1 & A2 & A3). split; [|split; auto].
  - constructor; auto. intros I. apply N. apply in_or_app; auto.
  - intros x [<-|I]; auto. intros I. apply N. apply in_or_app; auto.
Qed.
Lemma skipn_step {A} i (l : list A) x r : skipn i l = x :: r -> nth_error l i = Some x /\ skipn (S i) l = r.
Proof.
  revert i. induction l as [|y l IH]; intros [|i] H; simpl in *; try discriminate.
  - injection H as -> ->. auto.
  - destruct (IH i H) as [A1 A2]. split; auto.
Qed.
Lemma skipn_end {A} i (l : list A) : skipn i l = [] -> nth_error l i = None.
Proof. revert i. induction l as [|y l IH]; intros [|i] H; simpl in *; auto; discriminate. Qed.
Lemma oget_app' {A} k (l x : omap A) : oget k (l ++ x) = match oget k l with Some v => Some v | None => oget k x end.
Proof. induction l as [|[k' v] l IH]; simpl; auto. now destruct (String.eqb k k'). Qed.
Lemma oset_fresh {A} k (v : A) l : oget k l = None -> oset k v l = l ++ [(k, v)].
Proof.
  induction l as [|[k' x] l IH]; simpl; auto. destruct (String.eqb_spec k k') as [->|N]; [discriminate|].
  intros H. now rewrite IH.
Qed.

Definition map_body (tm : addr) (k : string) (sp : prop) : M unit :=
  bind (rd get_props tm) (fun tl =>
    match oget k tl with
    | Some tp => if p_req sp && negb (p_req tp) then fail else bind (rec (p_base tp) (p_base sp)) (fun _ => ret tt)
    | None => props_set tm k sp
    end).

Lemma entries_run m sm ks l vis : U sm -> ~ U m -> (forall x, In x vis -> U x) -> NoDup (map fst ks) ->
  forall rest n i s ns cur u s',
  skipn i ks = rest -> entries_fit pat fmt U (heap s) vis l rest ns -> ready s vis ns -> ~ In m ns ->
  get_props (heap s) sm = Some ks -> get_props (heap s) m = Some cur ->
  NoDup (map fst rest) -> (forall k, In k (map fst rest) -> oget k cur = oget k l) ->
  loop_props n sm i (map_body m) s = (Ok u, s') ->
  get_props (heap s') m = Some (cur ++ missing l rest)
  /\ frame_of (fun x => x = m \/ In x ns) s s'
  /\ sealed (fun x => In x ns \/ U x) (heap s')
  /\ forall k sp, In (k, sp) rest -> exists tp, oget k (cur ++ missing l rest) = Some tp
       /\ (p_req sp = true -> p_req tp = true) /\ (In (p_base tp) ns \/ U (p_base tp))
       /\ forall O v, oracle_wf O -> value_wf v -> valid O (heap s') (p_base tp) v -> valid O (heap s) (p_base sp) v.
Proof.
  intros Usm Num Uvis NDks. induction rest as [|[k sp] rest IH]; intros n i s ns cur u s' Sk Ft Rd Nm Gs Gm ND Cur H.
  - destruct n as [|n]; [discriminate|]. simpl in H. rewrite (bind_ok _ _ _ _ _ (rd_some _ _ _ _ Gs)) in H.
    rewrite (skipn_end _ _ Sk) in H. injection H as _ <-. inversion Ft; subst. simpl. rewrite app_nil_r.
    split; auto. split; [apply frame_of_refl|]. split; [|contradiction].
    destruct Rd as (_ & _ & S & _). eapply sealed_ext; [|exact S]. simpl. tauto.
  - destruct n as [|n]; [discriminate|]. simpl in H. rewrite (bind_ok _ _ _ _ _ (rd_some _ _ _ _ Gs)) in H.
    destruct (skipn_step _ _ _ _ Sk) as [E Sk']. rewrite E in H.
    apply bind_inv in H. destruct H as ([] & s1 & H1 & H).
    unfold map_body in H1. rewrite (bind_ok _ _ _ _ _ (rd_some _ _ _ _ Gm)) in H1.
    inversion ND as [|? ? Nk ND']; subst. simpl in *.
    pose proof (Cur k (or_introl eq_refl)) as Ck.
    destruct Rd as (NDn & Dis & SU & _).
    assert (Usp : forall k' sp', In (k', sp') ks -> U (p_base sp')).
    { intros k' sp' I. pose proof (sl_props _ _ SU _ _ Usm Gs) as F. unfold props_in in F. rewrite Forall_forall in F. apply (F _ I). }
    assert (Inks : forall x, In x (skipn (S i) ks) -> In x ks).
    { intros x I. rewrite <- (firstn_skipn (S i) ks). apply in_or_app. auto. }
    inversion Ft as [|? ? ? ? ? ? El Fr|? ? ? ? tp ? ns1 ns2 El F1 F2]; subst.
    + (* new property *)
      rewrite El in Ck. rewrite Ck in H1. destruct (props_set_eff _ _ _ _ _ _ _ Gm H1) as (Gm1 & Fr1 & B1).
      rewrite (oset_fresh _ _ _ Ck) in Gm1.
      assert (Ag : agree_on (heap s) (heap s1) vis ns).
      { split; [|split].
        - intros x Ix. split; [apply B1|]. apply (fo_props _ _ _ Fr1). congruence.
        - intros x _ _. apply B1.
        - intros x Ux. apply (fo_props _ _ _ Fr1). congruence. }
      assert (Um : forall x, U x -> x <> m) by (intros x Ux ->; contradiction).
      destruct (IH n (S i) s1 ns (cur ++ [(k, sp)]) u s' eq_refl) as (R1 & R2 & R3 & R4); auto.
      * destruct (fits_agree_all (heap s) (heap s1)) as (_ & _ & _ & K). apply K; auto.
      * split; auto. split; auto. split; auto. eapply sealed_frame; [|exact Fr1|exact SU]. auto.
      * rewrite (fo_props _ _ _ Fr1); auto.
      * intros k' I'. rewrite oget_app'. rewrite (Cur k') by auto. simpl.
        destruct (String.eqb_spec k' k) as [->|N]; [contradiction|]. now destruct (oget k' l).
      * assert (Q : cur ++ missing l ((k, sp) :: skipn (S i) ks) = (cur ++ [(k, sp)]) ++ missing l (skipn (S i) ks)).
        { unfold missing. simpl. rewrite El. now rewrite <- app_assoc. }
        fold (missing l ((k, sp) :: skipn (S i) ks)). simpl in Q. rewrite Q. split; auto. split.
        { eapply frame_of_trans; [|exact R2]. eapply frame_of_mono; [|exact Fr1]. simpl. auto. }
        split; auto.
        assert (Fall : frame_of (fun x => x = m \/ In x ns) s s').
        { eapply frame_of_trans; [|exact R2]. eapply frame_of_mono; [|exact Fr1]. simpl. auto. }
        assert (Uall : forall x, U x -> ~ (x = m \/ In x ns)).
        { intros x Ux [->|I]; [contradiction|]. now apply (Dis x). }
        intros k' sp' [I|I].
        -- injection I as <- <-. exists sp. split; [rewrite oget_app', oget_app', Ck; simpl; now rewrite String.eqb_refl|].
           split; auto. assert (U (p_base sp)) by (apply (Usp k); eapply nth_error_In; exact E).
           split; auto. intros O v _ _ V. eapply (valid_frame U); [exact SU|exact Uall|exact Fall|auto|exact V].
        -- destruct (R4 k' sp' I) as (tp & T1 & T2 & T3 & T4). exists tp. split; auto. split; auto. split; auto.
           intros O v HO Hv V. assert (Ub : U (p_base sp')) by (apply (Usp k'); auto).
           eapply (valid_frame U (fun x => x = m)); [exact SU|auto|exact Fr1|exact Ub|]. now apply T4.
    + (* property of both *)
      rewrite Ck, El in H1.
      destruct (p_req sp && negb (p_req tp)) eqn:Rq; [discriminate|].
      apply bind_inv in H1. destruct H1 as (r1 & s1' & H1 & H1'). injection H1' as <-.
      destruct (nodup_app _ _ NDn) as (ND1 & ND2 & Dj).
      assert (Rd1 : ready s vis ns1).
      { split; auto. split; auto. intros x I. apply Dis. apply in_or_app; auto. }
      destruct (Hrec _ _ _ _ _ _ _ F1 Rd1 H1) as (Fr1 & S1 & V1).
      assert (DU : forall x, U x -> ~ In x ns1) by (intros x Ux I; apply (Dis x); [apply in_or_app|]; auto).
      assert (Ag : agree_on (heap s) (heap s1') vis ns2).
      { split; [|split].
        - intros x Ix. assert (~ In x ns1) by (intros I; apply (Dj x I Ix)).
          split; [apply (fo_base _ _ _ Fr1)|apply (fo_props _ _ _ Fr1)]; auto.
        - intros x Ux _. apply (fo_base _ _ _ Fr1). auto.
        - intros x Ux. apply (fo_props _ _ _ Fr1). auto. }
      assert (Nm1 : ~ In m ns1) by (intros I; apply Nm; apply in_or_app; auto).
      assert (Nm2 : ~ In m ns2) by (intros I; apply Nm; apply in_or_app; auto).
      destruct (IH n (S i) s1' ns2 cur u s' eq_refl) as (R1 & R2 & R3 & R4); auto.
      * destruct (fits_agree_all (heap s) (heap s1')) as (_ & _ & _ & K). apply K; auto.
      * split; auto. split; [intros x I; apply Dis; apply in_or_app; auto|]. split; auto. eapply sealed_frame; [|exact Fr1|exact SU]. auto.
      * rewrite (fo_props _ _ _ Fr1); auto.
      * rewrite (fo_props _ _ _ Fr1); auto.
      * assert (Q : missing l ((k, sp) :: skipn (S i) ks) = missing l (skipn (S i) ks)) by (unfold missing; simpl; now rewrite El).
        simpl in Q. rewrite Q. split; auto. split.
        { eapply frame_of_trans; [eapply frame_of_mono; [|exact Fr1]|eapply frame_of_mono; [|exact R2]];
            simpl; intros x; rewrite in_app_iff; tauto. }
        assert (Dd : forall x, In x ns1 \/ U x -> ~ (x = m \/ In x ns2)).
        { intros x [I|Ux] [->|I2]; auto; [apply (Dj x I I2)|]. apply (Dis x); auto. apply in_or_app; auto. }
        split.
        { eapply sealed_ext; [|apply sealed_or; [exact R3|eapply sealed_frame; [exact Dd|exact R2|exact S1]]].
          intros x. simpl. rewrite in_app_iff. tauto. }
        intros k' sp' [I|I].
        -- injection I as <- <-. exists tp. split; [rewrite oget_app', Ck, El; reflexivity|].
           split. { intros Q1. rewrite Q1 in Rq. simpl in Rq. now destruct (p_req tp). }
           pose proof (fits_head _ _ _ _ _ F1) as Hd. split; [left; apply in_or_app; auto|].
           intros O v HO Hv V. apply V1; auto.
           apply (valid_frame (fun x => In x ns1 \/ U x) (fun x => x = m \/ In x ns2) O s1' s'); auto.
        -- destruct (R4 k' sp' I) as (tp' & T1 & T2 & T3 & T4). exists tp'. split; auto. split; auto.
           split; [destruct T3; [left; apply in_or_app|]; auto|].
           intros O v HO Hv V. assert (Ub : U (p_base sp')) by (apply (Usp k'); auto).
           eapply (valid_frame U (fun x => In x ns1)); [exact SU|auto|exact Fr1|exact Ub|]. now apply T4.
Qed.

Lemma min_inherit_at t s r z : min_inherit Z.ltb t s = Ok r -> at_least r z -> at_least s z.
Proof.
  unfold min_inherit, at_least. destruct t as [a|], s as [b|]; intros H K m Hm; try discriminate.
  - destruct (Z.ltb_spec a b); [discriminate|]. injection H as <-. injection Hm as <-. specialize (K a eq_refl). lia.
  - injection H as <-. injection Hm as <-. auto.
Qed.
Lemma max_inherit_at t s r z : max_inherit Z.ltb t s = Ok r -> at_most r z -> at_most s z.
Proof.
  unfold max_inherit, at_most. destruct t as [a|], s as [b|]; intros H K m Hm; try discriminate.
  - destruct (Z.ltb_spec b a); [discriminate|]. injection H as <-. injection Hm as <-. specialize (K a eq_refl). lia.
  - injection H as <-. injection Hm as <-. auto.
Qed.
Lemma uniq_inherit_at t s r : uniq_inherit t s = Ok r -> s = Some true -> r = Some true.
Proof. unfold uniq_inherit. intros H ->. destruct t as [[]|]; try discriminate; congruence. Qed.

Lemma lift_ok {A} (r : res A) s x s' : lift r s = (Ok x, s') -> r = Ok x /\ s' = s.
Proof. unfold lift. intros H. injection H as -> ->. auto. Qed.
Lemma cur_arr_ok a f s : shape_at (heap s) a (SArray f) -> forall old, cur_arr a old s = (Ok f, s).
Proof.
  intros (b & G & Sh) old. unfold cur_arr. rewrite (bind_ok _ _ _ _ _ (rd_some _ _ _ _ G)), Sh. reflexivity.
Qed.
Lemma cur_obj_ok a f s : shape_at (heap s) a (SObject f) -> forall old, cur_obj a old s = (Ok f, s).
Proof.
  intros (b & G & Sh) old. unfold cur_obj. rewrite (bind_ok _ _ _ _ _ (rd_some _ _ _ _ G)), Sh. reflexivity.
Qed.
Lemma shape_frame (N : addr -> Prop) s s' a sh : frame_of N s s' -> ~ N a -> shape_at (heap s) a sh -> shape_at (heap s') a sh.
Proof. intros F n (b & G & Sh). exists b. rewrite (fo_base _ _ _ F); auto. Qed.

(** A shape whose parts lie in [D], added to [D]. *)
Lemma sealed_add (D : addr -> Prop) h t sh : sealed D h -> shape_at h t sh -> shape_in (fun x => x = t \/ D x) sh ->
  sealed (fun x => x = t \/ D x) h.
Proof.
  intros [A1 A2 A3] (b & G & Sh) I. split.
  - intros a b' sh' [->|K] G' Sh'; [congruence|]. eapply shape_in_mono; [|eapply A1; eauto]. auto.
  - intros m l [->|K] G'.
    + apply get_props_nth in G'. apply get_base_nth in G. congruence.
    + eapply Forall_impl; [|eapply A2; eauto]. simpl. auto.
  - intros m l [->|K] G'.
    + apply get_slice_nth in G'. apply get_base_nth in G. congruence.
    + eapply Forall_impl; [|eapply A3; eauto]. auto.
Qed.
Lemma sealed_add_props (D : addr -> Prop) h m l : sealed D h -> get_props h m = Some l -> props_in (fun x => x = m \/ D x) l ->
  sealed (fun x => x = m \/ D x) h.
Proof.
  intros [A1 A2 A3] G I. split.
  - intros a b' sh' [->|K] G' Sh'; [|eapply shape_in_mono; [|eapply A1; eauto]; auto].
    apply get_props_nth in G. apply get_base_nth in G'. congruence.
  - intros m' l' [->|K] G'; [congruence|]. eapply Forall_impl; [|eapply A2; eauto]. simpl. auto.
  - intros m' l' [->|K] G'.
    + apply get_slice_nth in G'. apply get_props_nth in G. congruence.
    + eapply Forall_impl; [|eapply A3; eauto]. auto.
Qed.

Lemma items_inv h vis o p ns : items_fit pat fmt U h vis o p ns ->
  (o = None /\ ns = []) \/ (exists i, o = Some i /\ p = None /\ U i /\ ns = [])
  \/ exists i j, o = Some i /\ p = Some j /\ fits pat fmt U h vis i j ns.
Proof. destruct 1; [left|right; left|right; right]; eauto 7. Qed.
Lemma props_inv h vis o p ns : props_fit pat fmt U h vis o p ns ->
  (o = None /\ ns = []) \/ (exists m, o = Some m /\ p = None /\ U m /\ ns = [])
  \/ exists m sm l ks ns', o = Some m /\ p = Some sm /\ ns = m :: ns' /\ get_props h m = Some l /\ get_props h sm = Some ks
       /\ U sm /\ NoDup (map fst ks) /\ (forall k p, In (k, p) l -> (exists sp, oget k ks = Some sp) \/ U (p_base p))
       /\ NoDup (map fst l) /\ entries_fit pat fmt U h vis l ks ns'.
Proof. destruct 1 as [| |vis m sm l ks ns']; [left|right; left|right; right]; eauto 7. exists m, sm, l, ks, ns'. auto 12. Qed.

Lemma array_core m t src f g ns vis s u s' :
  shape_at (heap s) t (SArray f) -> shape_at (heap s) src (SArray g) -> U src ->
  items_fit pat fmt U (heap s) vis (a_items f) (a_items g) ns -> ready s vis (t :: ns) ->
  inherit_shape m rec t src (SArray f) (SArray g) s = (Ok u, s') -> derived s s' t src (t :: ns).
Proof.
  intros T S Us I (ND & Dis & SU & Uv) H. simpl in H. unfold inherit_array in H.
  inversion ND as [|? ? Nt ND']; subst.
  assert (Ts : t <> src). { intros ->. apply (Dis src); auto. now left. }
  assert (Ut : ~ U t) by (apply Dis; now left).
  apply bind_inv in H. destruct H as ([] & sA & HA & H).
  assert (A : exists fa, shape_at (heap sA) t (SArray fa) /\ a_min fa = a_min f /\ a_max fa = a_max f /\ a_uniq fa = a_uniq f
    /\ frame_of (fun x => In x (t :: ns)) s sA
    /\ sealed (fun x => In x ns \/ U x) (heap sA) /\ opt_in (fun x => In x ns \/ U x) (a_items fa)
    /\ forall j, a_items g = Some j -> U j /\ exists i, a_items fa = Some i /\
         forall O v, oracle_wf O -> value_wf v -> valid O (heap sA) i v -> valid O (heap s) j v).
  { assert (Ig : opt_in U (a_items g)). { destruct S as (b & G & Sh). exact (sl_base _ _ SU _ _ _ Us G Sh). }
    destruct (items_inv _ _ _ _ _ I) as [(E1 & ->)|[(i & E1 & E2 & Ui & ->)|(i & j & E1 & E2 & F)]]; rewrite E1 in HA.
    - destruct (upd_arr_eff _ _ _ _ _ _ T HA) as (T1 & F1 & P1). eexists. split; [exact T1|]. simpl.
      split; auto. split; auto. split; auto. split; [eapply frame_of_mono; [|exact F1]; simpl; auto|].
      assert (Fr : frame_of (fun x => x = t) s sA) by exact F1.
      assert (Dt : forall x, U x -> x <> t) by (intros x Ux ->; contradiction).
      split. { eapply sealed_ext; [|eapply sealed_frame; [exact Dt|exact Fr|exact SU]]. simpl. tauto. }
      split. { intros x Ex. right. now apply Ig. }
      intros j' Ej. split; [now apply Ig|]. exists j'. split; auto. intros O v _ _ V.
      eapply (valid_frame U); [exact SU|exact Dt|exact Fr|now apply Ig|exact V].
    - rewrite E2 in HA. injection HA as <-. exists f. split; auto. split; auto. split; auto. split; auto. split; [apply frame_of_refl|].
      split. { eapply sealed_ext; [|exact SU]. simpl. tauto. }
      split; [intros x Ex; right; congruence|]. intros j Ej. congruence.
    - rewrite E2 in HA. apply bind_inv in HA. destruct HA as (r1 & s1 & HA & HA'). injection HA' as <-.
      assert (Rd : ready s vis ns). { split; auto. split; auto. intros x Ix. apply Dis. now right. }
      destruct (Hrec _ _ _ _ _ _ _ F Rd HA) as (Fr & Sl & V).
      exists f. split; [eapply shape_frame; eauto|]. split; auto. split; auto. split; auto.
      split; [eapply frame_of_mono; [|exact Fr]; simpl; auto|]. split; auto.
      split. { intros x Ex. left. replace x with i by congruence. eapply fits_head; eauto. }
      intros j' Ej. assert (j' = j) by congruence. subst j'. split; [eapply fits_src; eauto|]. exists i. split; auto. }
  destruct A as (fa & TA & Q1 & Q2 & Q3 & FA & SA & IA & VA).
  assert (NsA : ~ In src (t :: ns)). { intros K. apply (Dis src); auto. }
  rewrite (bind_ok _ _ _ _ _ (cur_arr_ok _ _ _ TA _)) in H.
  rewrite (bind_ok _ _ _ _ _ (cur_arr_ok _ _ _ (shape_frame _ _ _ _ _ FA NsA S) _)) in H.
  apply bind_inv in H. destruct H as (mn & s1 & H1 & H). apply lift_ok in H1. destruct H1 as [E1 ->].
  apply bind_inv in H. destruct H as (mx & s1 & H1 & H). apply lift_ok in H1. destruct H1 as [E2 ->].
  apply bind_inv in H. destruct H as (un & s1 & H1 & H). apply lift_ok in H1. destruct H1 as [E3 ->].
  destruct (upd_arr_eff _ _ _ _ _ _ TA H) as (T2 & F2 & P2). simpl in T2.
  assert (Dt : forall x, In x ns \/ U x -> x <> t) by (intros x [K|K] ->; contradiction).
  pose proof (sealed_frame _ _ _ _ Dt F2 SA) as S2. split; [|split].
  - eapply frame_of_trans; [exact FA|]. eapply frame_of_mono; [|exact F2]. simpl. auto.
  - eapply sealed_ext; [|eapply sealed_add; [exact S2|exact T2|]].
    + simpl. intros x. split; intros [?|[?|?]] || intros [[?|?]|?]; auto.
    + simpl. intros x Ex. right. now apply IA.
  - intros O v HO Hv V. apply valid_iff in V. destruct V as (sh & Sh & Acc).
    pose proof (shape_at_fun _ _ _ _ T2 Sh) as <-. simpl in Acc.
    destruct Acc as (l & -> & A1 & A2 & A3 & A4). simpl in *.
    apply valid_iff. exists (SArray g). split; auto. simpl. exists l. split; auto.
    split; [eapply min_inherit_at; eauto|]. split; [eapply max_inherit_at; eauto|]. split.
    + intros j x Ej Ix. destruct (VA j Ej) as (Uj & i & Ei & K). apply K; auto.
      { inversion Hv; subst; auto. exfalso. eapply H1; reflexivity. }
      eapply (valid_frame (fun x => In x ns \/ U x)); [exact SA|exact Dt|exact F2|now apply IA|]. now apply A3.
    + intros Eu. apply A4. eapply uniq_inherit_at; eauto.
Qed.

Definition map_narrows (s s2 : st) (o2 og : option addr) : Prop :=
  forall ps, props_of (heap s2) o2 ps -> exists ks, props_of (heap s) og ks
    /\ (forall k sp, In (k, sp) ks -> p_req sp = true -> exists tp, In (k, tp) ps /\ p_req tp = true)
    /\ (forall k sp, oget k ks = Some sp -> exists tp, oget k ps = Some tp
          /\ forall O v, oracle_wf O -> value_wf v -> valid O (heap s2) (p_base tp) v -> valid O (heap s) (p_base sp) v).

Lemma object_core m t src f g ns vis s u s' :
  shape_at (heap s) t (SObject f) -> shape_at (heap s) src (SObject g) -> U src ->
  o_addl g <> Some false -> o_pprops g = None -> opt_in U (o_pprops f) ->
  props_fit pat fmt U (heap s) vis (o_props f) (o_props g) ns -> ready s vis (t :: ns) ->
  inherit_shape m rec t src (SObject f) (SObject g) s = (Ok u, s') -> derived s s' t src (t :: ns).
Proof.
  intros T S Us Ad Pg Pf I (ND & Dis & SU & Uv) H. simpl in H. unfold inherit_object in H.
  inversion ND as [|? ? Nt ND']; subst.
  assert (Ts : t <> src). { intros ->. apply (Dis src); auto. now left. }
  assert (Ut : ~ U t) by (apply Dis; now left).
  assert (DtU : forall x, U x -> x <> t) by (intros x Ux ->; contradiction).
  assert (Dt : forall x, In x ns \/ U x -> x <> t) by (intros x [K|K] ->; contradiction).
  apply bind_inv in H. destruct H as (mn & s1 & H1 & H). apply lift_ok in H1. destruct H1 as [E1 ->].
  apply bind_inv in H. destruct H as (mx & s1 & H1 & H). apply lift_ok in H1. destruct H1 as [E2 ->].
  apply bind_inv in H. destruct H as ([] & s1 & H1 & H).
  destruct (upd_obj_eff _ _ _ _ _ _ T H1) as (T1 & F1 & P1). simpl in T1.
  pose proof (sealed_frame _ _ _ _ DtU F1 SU) as SU1.
  apply bind_inv in H. destruct H as ([] & s2 & H2 & H).
  set (f1 := ObjF _ _ _ _ _ _ _) in T1.
  assert (A : exists f2, shape_at (heap s2) t (SObject f2) /\ o_min f2 = mn /\ o_max f2 = mx /\ o_pprops f2 = o_pprops f
    /\ frame_of (fun x => In x (t :: ns)) s s2 /\ sealed (fun x => In x ns \/ U x) (heap s2)
    /\ opt_in (fun x => In x ns \/ U x) (o_props f2) /\ map_narrows s s2 (o_props f2) (o_props g)).
  { assert (Ig : opt_in U (o_props g)). { destruct S as (b & G & Sh). exact (proj1 (sl_base _ _ SU _ _ _ Us G Sh)). }
    destruct (props_inv _ _ _ _ _ I) as [(Q1 & ->)|[(m0 & Q1 & Q2 & Um & ->)|(m0 & sm & l & ks & ns' & Q1 & Q2 & -> & Gl & Gk & Usm & NDk & Own & NDl & EF)]];
      unfold inherit_props in H2; rewrite Q1 in H2.
    - destruct (upd_obj_eff _ _ _ _ _ _ T1 H2) as (T2 & F2 & P2). simpl in T2. eexists. split; [exact T2|]. simpl.
      assert (Fr : frame_of (fun x => x = t) s s2) by (eapply frame_of_trans; eauto).
      split; auto. split; auto. split; auto. split; [eapply frame_of_mono; [|exact Fr]; simpl; auto|].
      split. { eapply sealed_ext; [|eapply sealed_frame; [exact DtU|exact F2|exact SU1]]. simpl. tauto. }
      split. { intros x Ex. right. now apply Ig. }
      intros ps Ps. exists ps.
      assert (Ps0 : props_of (heap s) (o_props g) ps).
      { destruct Ps as [?|(mm & Em & Gm)]; [now left|]. right. exists mm. split; auto.
        rewrite (fo_props _ _ _ Fr) in Gm; auto. }
      split; auto. split; [eauto|]. intros k sp Ek. exists sp. split; auto. intros O v _ _ V.
      assert (U (p_base sp)).
      { pose proof (props_of_in _ _ _ _ SU Ig Ps0) as F. unfold props_in in F. rewrite Forall_forall in F.
        apply (F (k, sp)). now apply oget_In. }
      eapply (valid_frame U); [exact SU|exact DtU|exact Fr|auto|exact V].
    - rewrite Q2 in H2. injection H2 as <-. exists f1. split; auto. simpl. split; auto. split; auto. split; auto.
      split; [eapply frame_of_mono; [|exact F1]; simpl; auto|].
      split. { eapply sealed_ext; [|exact SU1]. simpl. tauto. }
      split; [intros x Ex; right; congruence|].
      intros ps _. exists []. split; [left; rewrite Q2; auto|]. split; [contradiction|discriminate].
    - rewrite Q2 in H2. change (inherit_map m rec m0 sm) with (loop_props m sm 0 (map_body m0)) in H2.
      inversion ND' as [|? ? Nm ND'']; subst.
      assert (Num : ~ U m0) by (apply Dis; simpl; auto).
      assert (Nmt : m0 <> t) by (intros ->; apply Nt; now left).
      assert (Rd1 : ready s1 vis ns').
      { split; auto. split; auto. intros x Ix. apply Dis. simpl; auto. }
      assert (Ag : agree_on (heap s) (heap s1) vis ns').
      { split; [|split].
        - intros x Ix. split; [apply (fo_base _ _ _ F1)|apply P1]. intros ->. apply Nt. now right.
        - intros x Ux _. apply (fo_base _ _ _ F1). auto.
        - intros x _. apply P1. }
      destruct (entries_run m0 sm ks l vis Usm Num Uv NDk ks m 0 s1 ns' l tt s2) as (R1 & R2 & R3 & R4); auto.
      + destruct (fits_agree_all (heap s) (heap s1)) as (_ & _ & _ & K). apply K; auto.
      + now rewrite P1.
      + now rewrite P1.
      + assert (Fr : frame_of (fun x => In x (t :: m0 :: ns')) s s2).
        { eapply frame_of_trans; [eapply frame_of_mono; [|exact F1]|eapply frame_of_mono; [|exact R2]]; simpl; intuition. }
        assert (R2t : ~ (t = m0 \/ In t ns')). { intros [->|K]; apply Nt; simpl; auto. }
        exists f1. split; [eapply shape_frame; [exact R2|exact R2t|exact T1]|]. simpl. split; auto. split; auto. split; auto.
        split; [exact Fr|]. split.
        { eapply sealed_ext; [|eapply sealed_add_props; [exact R3|exact R1|]].
          - simpl. intros x. split; intros K; decompose [or] K; auto.
          - apply Forall_forall. intros [k p] Ip. simpl. apply in_app_or in Ip. destruct Ip as [Ip|Ip].
            + destruct (Own _ _ Ip) as [(sp & Ek)|?]; auto.
              destruct (R4 k sp (oget_In _ _ _ Ek)) as (tp & Tp & _ & Hb & _).
              assert (oget k l = Some p).
              { clear -Ip NDl. induction l as [|[k' p'] l IH]; simpl in *; [contradiction|]. inversion NDl; subst.
                destruct Ip as [Ip|Ip]; [injection Ip as -> ->; now rewrite String.eqb_refl|].
                destruct (String.eqb_spec k k') as [->|N]; auto. exfalso. apply H1. apply in_map_iff. exists (k', p). auto. }
              rewrite oget_app', H0 in Tp. injection Tp as <-. tauto.
            + unfold missing in Ip. apply filter_In in Ip. destruct Ip as [Ip _].
              right. right. pose proof (sl_props _ _ SU _ _ Usm Gk) as F. unfold props_in in F. rewrite Forall_forall in F. apply (F _ Ip). }
        split. { intros x Ex. left. rewrite Q1 in Ex. injection Ex as <-. now left. }
        intros ps Ps. rewrite Q1 in Ps. destruct Ps as [[? _]|(mm & Em & Gm)]; [discriminate|]. injection Em as <-.
        rewrite R1 in Gm. injection Gm as <-. exists ks. split; [right; exists sm; auto|]. split.
        * intros k sp Ik Rq. destruct (R4 k sp Ik) as (tp & Tp & Tr & _). exists tp. split; [now apply oget_In|auto].
        * intros k sp Ek. destruct (R4 k sp (oget_In _ _ _ Ek)) as (tp & Tp & _ & _ & V). exists tp. split; auto.
          intros O v HO Hv Vv. eapply (valid_frame U (fun x => x = t)); [exact SU|exact DtU|exact F1| |now apply V].
          pose proof (sl_props _ _ SU _ _ Usm Gk) as F. unfold props_in in F. rewrite Forall_forall in F.
          apply (F (k, sp)). now apply oget_In. }
  destruct A as (f2 & T2 & M1 & M2 & M3 & FA & SA & IA & NA).
  assert (NsA : ~ In src (t :: ns)). { intros K. apply (Dis src); auto. }
  rewrite (bind_ok _ _ _ _ _ (cur_obj_ok _ _ _ T2 _)) in H.
  rewrite (bind_ok _ _ _ _ _ (cur_obj_ok _ _ _ (shape_frame _ _ _ _ _ FA NsA S) _)) in H.
  rewrite Pg in H. unfold inherit_pprops in H.
  assert (B : exists f3, shape_at (heap s') t (SObject f3) /\ o_min f3 = mn /\ o_max f3 = mx /\ o_props f3 = o_props f2
    /\ opt_in U (o_pprops f3) /\ frame_of (fun x => x = t) s2 s' /\ forall x, get_props (heap s') x = get_props (heap s2) x).
  { destruct (o_pprops f2) as [pp|] eqn:Epp.
    - injection H as _ <-. exists f2. split; auto. split; auto. split; auto. split; auto. split; [|split; [apply frame_of_refl|auto]].
      rewrite Epp, M3. auto.
    - destruct (upd_obj_eff _ _ _ _ _ _ T2 H) as (T3 & F3 & P3). eexists. split; [exact T3|]. simpl. split; auto. split; auto. split; auto.
      split; [discriminate|auto]. }
  destruct B as (f3 & T3 & K1 & K2 & K3 & K4 & F3 & P3).
  split; [|split].
  - eapply frame_of_trans; [exact FA|]. eapply frame_of_mono; [|exact F3]. simpl. auto.
  - eapply sealed_ext; [|eapply sealed_add; [eapply sealed_frame; [exact Dt|exact F3|exact SA]|exact T3|]].
    + simpl. intros x. split; intros K; decompose [or] K; auto.
    + simpl. rewrite K3. split; intros x Ex; right; [now apply IA|right; now apply K4].
  - intros O v HO Hv V. apply valid_iff in V. destruct V as (sh & Sh & Acc).
    pose proof (shape_at_fun _ _ _ _ T3 Sh) as <-. simpl in Acc.
    destruct Acc as (kvs & ps & pps & -> & A0 & A00 & A1 & A2 & A3 & A4 & A5). rewrite K3 in A0. rewrite K1 in A1. rewrite K2 in A2.
    assert (A0' : props_of (heap s2) (o_props f2) ps).
    { destruct A0 as [?|(mm & Em & Gm)]; [now left|]. right. exists mm. rewrite P3 in Gm. auto. }
    destruct (NA ps A0') as (ks & Pk & N1 & N2).
    apply valid_iff. exists (SObject g). split; auto. simpl. exists kvs, ks, []. split; auto. split; auto.
    split; [left; auto|].
    split; [eapply min_inherit_at; eauto|]. split; [eapply max_inherit_at; eauto|].
    split; [|split].
    + intros k p Ip Rq. destruct (N1 k p Ip Rq) as (tp & It & Rt). eauto.
    + intros k x p Ik Ek. destruct (N2 k p Ek) as (tp & Et & Vt). apply Vt; auto.
      { inversion Hv; subst; eauto. exfalso. match goal with K : forall l, GMap _ <> GMap l |- _ => eapply K; reflexivity end. }
      pose proof (A4 k x tp Ik Et) as Vx.
      eapply (valid_frame (fun x => In x ns \/ U x)); [exact SA|exact Dt|exact F3| |exact Vx].
      pose proof (props_of_in _ _ _ _ SA IA A0') as F. unfold props_in in F. rewrite Forall_forall in F.
      apply (F (k, tp)). now apply oget_In.
    + intros k x Ik Ek. split; [exact Ad|]. left. intros k1 p1 [].
Qed.
End Body.

Lemma scalar_core m rec t src tsh ssh s u s' :
  shape_at (heap s) t tsh -> shape_at (heap s) src ssh -> plain pat fmt tsh -> plain pat fmt ssh ->
  inherit_shape m rec t src tsh ssh s = (Ok u, s') ->
  frame_of (fun x => x = t) s s' /\ (forall x, get_props (heap s') x = get_props (heap s) x)
  /\ exists sh, inherit_scalar tsh ssh = Some (Ok sh) /\ plain pat fmt sh
     /\ exists b, get_base (heap s) t = Some b /\ get_base (heap s') t = Some (set_shape (Some sh) b).
Proof.
  intros T S Pt Ps H.
  assert (R : exists r, inherit_scalar tsh ssh = Some r /\ bind (lift r) (fun sh => upd_base t (set_shape (Some sh))) s = (Ok u, s')).
  { destruct tsh, ssh; simpl in Pt, Ps; try contradiction; simpl in H |- *; try discriminate H; eexists; (split; [reflexivity|exact H]). }
  destruct R as (r & E & R). apply bind_inv in R. destruct R as (sh & s1 & R1 & R). apply lift_ok in R1. destruct R1 as [-> ->].
  apply upd_base_eff in R. destruct R as (b & G & B & F & P). split; auto. split; auto. exists sh. split; auto.
  split; [eapply plain_inherit; [exact Pt|exact Ps|exact E]|]. exists b. split; auto. now rewrite B, Nat.eqb_refl.
Qed.

Lemma value_leaf v : value_wf v -> gval_wf v.
Proof. destruct 1; simpl; auto. Qed.

Lemma plain_in D sh : plain pat fmt sh -> shape_in D sh.
Proof. destruct sh; simpl; tauto. Qed.

Lemma shapes_sealed D h h' : (forall a sh, shape_at h' a sh -> shape_at h a sh) ->
  (forall x, get_props h' x = get_props h x) -> (forall x, get_slice h' x = get_slice h x) -> sealed D h -> sealed D h'.
Proof.
  intros H P L [A1 A2 A3]. split; intros.
  - destruct (H a sh) as (b' & G & Sh); [exists b; auto|]. eauto.
  - rewrite P in H1. eauto.
  - rewrite L in H1. eauto.
Qed.
Lemma shapes_valid O h h' : (forall a sh, shape_at h a sh -> shape_at h' a sh) ->
  (forall x, get_props h' x = get_props h x) -> (forall x, get_slice h' x = get_slice h x) ->
  forall a v, valid O h a v -> valid O h' a v.
Proof.
  intros H P L a v. apply (valid_region (fun _ => True)); auto.
  - split; intros; [destruct sh; simpl; unfold opt_in; auto|apply Forall_forall; auto|apply Forall_forall; auto].
  - intros. now rewrite P.
  - intros. now rewrite L.
Qed.

Theorem inherit_derives n : forall vis t src ns s r s',
  fits pat fmt U (heap s) vis t src ns -> ready s vis ns ->
  inherit n t src s = (Ok r, s') -> derived s s' t src ns.
Proof.
  induction n as [|n IH]; intros vis t src ns s r s' F Rd H; [discriminate|].
  pose proof (fits_head _ _ _ _ _ F) as Ht. pose proof (fits_src _ _ _ _ _ F) as Us.
  destruct Rd as (ND & Dis & SU & Uv).
  assert (Nsrc : ~ In src ns) by (intros K; apply (Dis src); auto).
  assert (Ts : t <> src) by (intros ->; contradiction).
  assert (Nd : exists tsh ssh, node (heap s) t src tsh ssh /\ simple_pair tsh ssh
    /\ forall s1 s2, agree_on (heap s) (heap s1) (src :: vis) (tl ns) ->
         shape_at (heap s1) t tsh -> shape_at (heap s1) src ssh -> sealed U (heap s1) ->
         inherit_shape n (inherit n) t src tsh ssh s1 = (Ok tt, s2) -> derived s1 s2 t src ns).
  { assert (Uv' : forall x, In x (src :: vis) -> U x) by (intros x [<-|K]; auto).
    inversion F as [? ? ? tsh ssh Nd Nv _ P1 P2|? ? ? f g ns' Nd Nv _ Ft|? ? ? f g ns' Nd Nv _ Ad Pg Pf Ft]; subst.
    - exists tsh, ssh. split; auto. split.
      { destruct tsh, ssh; simpl in P1, P2; try contradiction; repeat split; discriminate. }
      intros s1 s2 _ T S SU1 Run.
      destruct (scalar_core _ _ _ _ _ _ _ _ _ T S P1 P2 Run) as (Fr & P & sh & E & Pl & b & G & G').
      destruct (plain_inherit _ _ _ _ _ P1 P2 E) as [_ K]. split; [|split].
      + eapply frame_of_mono; [|exact Fr]. simpl. auto.
      + assert (Dt : forall x, U x -> x <> t) by (intros x Ux ->; apply (Dis t); simpl; auto).
        eapply sealed_ext; [|apply (sealed_add U _ t sh); [eapply sealed_frame; [exact Dt|exact Fr|exact SU1]| |]].
        * simpl. intros x. intuition.
        * eexists. split; [exact G'|reflexivity].
        * now apply plain_in.
      + intros O v HO Hv V. apply valid_iff in V. destruct V as (sh' & Sh & Acc).
        assert (sh' = sh). { eapply shape_at_fun; [exact Sh|]. eexists. split; [exact G'|reflexivity]. }
        subst sh'. apply K in Acc; auto using value_leaf. apply valid_iff. exists ssh. split; auto.
        destruct Acc as [_ Acc]. destruct ssh; simpl in *; auto; contradiction.
    - exists (SArray f), (SArray g). split; auto. split; [repeat split; discriminate|].
      intros s1 s2 Ag T S SU1 Run. simpl in Ag.
      eapply (array_core (inherit n) IH) with (vis := src :: vis); eauto.
      + destruct (fits_agree_all (heap s) (heap s1)) as (_ & K & _ & _). apply K; auto.
      + split; auto.
    - exists (SObject f), (SObject g). split; auto. split; [repeat split; discriminate|].
      intros s1 s2 Ag T S SU1 Run. simpl in Ag.
      eapply (object_core (inherit n) IH) with (vis := src :: vis); eauto.
      + destruct (fits_agree_all (heap s) (heap s1)) as (_ & _ & K & _). apply K; auto.
      + split; auto. }
  destruct Nd as (tsh & ssh & ((tb & Gt & St) & sb & Gs & Ss & V) & SP & Core).
  destruct (inherit_opened _ _ _ _ _ _ _ _ _ _ H Gt Gs Ts St Ss V SP)
    as (m & s1 & s2 & Em & -> & F1 & P1 & S1 & (d & T1) & Run & F3 & P3 & sb2 & S2 & S3).
  injection Em as <-.
  assert (Sh1 : forall a sh, shape_at (heap s) a sh <-> shape_at (heap s1) a sh).
  { intros a sh. destruct (Nat.eq_dec a t) as [->|Nt].
    - split; intros (b & G & Q); [rewrite Gt in G|rewrite T1 in G]; injection G as <-; [exists (set_desc d tb)|exists tb]; auto.
    - destruct (Nat.eq_dec a src) as [->|Ns].
      + split; intros (b & G & Q); [rewrite Gs in G|rewrite S1 in G]; injection G as <-; [exists (set_visited true sb)|exists sb]; auto.
      + unfold shape_at. rewrite (fo_base _ _ _ F1) by tauto. tauto. }
  assert (SU1 : sealed U (heap s1)).
  { eapply shapes_sealed; [intros a sh; apply Sh1|exact P1|apply (fo_slice _ _ _ F1)|exact SU]. }
  assert (Ag : agree_on (heap s) (heap s1) (src :: vis) (tl ns)).
  { split; [|split].
    - intros x Ix. split; [|apply P1]. apply (fo_base _ _ _ F1). intros [->| ->].
      + inversion F; subst; simpl in Ix; try contradiction; inversion ND; contradiction.
      + apply Nsrc. destruct ns; simpl in *; auto.
    - intros x Ux Nx. apply (fo_base _ _ _ F1). intros [->| ->]; [apply (Dis t); auto|apply Nx; now left].
    - intros x _. apply P1. }
  destruct (Core s1 s2 Ag) as (Fr & Sl & Vl); auto.
  { apply Sh1. exists tb; auto. } { apply Sh1. exists sb; auto. }
  assert (Sb2 : sb2 = set_visited true sb).
  { rewrite (fo_base _ _ _ Fr) in S2 by auto. congruence. }
  assert (Sh3 : forall a sh, shape_at (heap s2) a sh <-> shape_at (heap s') a sh).
  { intros a sh. destruct (Nat.eq_dec a src) as [->|Ns].
    - split; intros (b & G & Q); [rewrite S2 in G|rewrite S3 in G]; injection G as <-; [exists (set_visited false sb2)|exists sb2]; auto.
    - unfold shape_at. rewrite (fo_base _ _ _ F3) by auto. tauto. }
  split; [|split].
  - split; intros x.
    + intros Nx. destruct (Nat.eq_dec x src) as [->|Ns].
      * rewrite S3, Gs, Sb2. f_equal. destruct sb; simpl in *. now subst.
      * rewrite (fo_base _ _ _ F3), (fo_base _ _ _ Fr), (fo_base _ _ _ F1); auto. intros [->| ->]; auto.
    + intros Nx. rewrite P3, (fo_props _ _ _ Fr), P1; auto.
    + rewrite (fo_slice _ _ _ F3), (fo_slice _ _ _ Fr), (fo_slice _ _ _ F1); auto.
  - eapply shapes_sealed; [intros a sh; apply Sh3|exact P3|apply (fo_slice _ _ _ F3)|exact Sl].
  - intros O v HO Hv Vv.
    assert (V2 : valid O (heap s2) t v).
    { eapply shapes_valid; [intros a sh; apply Sh3| | |exact Vv]; intros x; symmetry; [apply P3|apply (fo_slice _ _ _ F3)]. }
    eapply shapes_valid; [intros a sh; apply Sh1| | |exact (Vl O v HO Hv V2)]; intros x; symmetry; [apply P1|apply (fo_slice _ _ _ F1)].
Qed.
End Pairs.

(** * Several scalar parents *)

Section Parents.
Variable pat : string.
Variable fmt : option string.

Lemma scalar_inherit n t src s r s' tb sb tsh ssh : inherit n t src s = (Ok r, s') -> t <> src ->
  get_base (heap s) t = Some tb -> get_base (heap s) src = Some sb -> b_shape tb = Some tsh -> b_shape sb = Some ssh ->
  b_visited sb = false -> plain pat fmt tsh -> plain pat fmt ssh ->
  r = t /\ frame_of (fun x => x = t) s s' /\ (forall x, get_props (heap s') x = get_props (heap s) x)
  /\ exists sh d, inherit_scalar tsh ssh = Some (Ok sh) /\ get_base (heap s') t = Some (set_shape (Some sh) (set_desc d tb)).
Proof.
  intros H N T S St Ss V Pt Ps.
  assert (SP : simple_pair tsh ssh).
  { destruct tsh, ssh; simpl in Pt, Ps; try contradiction; repeat split; discriminate. }
  destruct (inherit_opened _ _ _ _ _ _ _ _ _ _ H T S N St Ss V SP)
    as (m & s1 & s2 & -> & -> & F1 & P1 & S1 & (d & T1) & Run & F3 & P3 & sb2 & S2 & S3).
  assert (T1' : shape_at (heap s1) t tsh) by (exists (set_desc d tb); auto).
  assert (S1' : shape_at (heap s1) src ssh) by (exists (set_visited true sb); auto).
  destruct (scalar_core pat fmt _ _ _ _ _ _ _ _ _ T1' S1' Pt Ps Run) as (Fr & P & sh & E & Pl & b & G & G').
  split; auto. split; [|split].
  - split; intros x.
    + intros Nx. destruct (Nat.eq_dec x src) as [->|Ns].
      * rewrite S3, S. f_equal. rewrite (fo_base _ _ _ Fr), S1 in S2 by auto. injection S2 as <-. destruct sb; simpl in *. now subst.
      * rewrite (fo_base _ _ _ F3), (fo_base _ _ _ Fr), (fo_base _ _ _ F1); tauto.
    + intros Nx. now rewrite P3, P, P1.
    + rewrite (fo_slice _ _ _ F3), (fo_slice _ _ _ Fr), (fo_slice _ _ _ F1); auto.
  - intros x. now rewrite P3, P, P1.
  - exists sh, d. split; auto. rewrite (fo_base _ _ _ F3) by auto. rewrite T1 in G. injection G as <-. exact G'.
Qed.

Lemma slice_set_eff sl i x s u s' : slice_set sl i x s = (Ok u, s') -> exists l, get_slice (heap s) sl = Some l
  /\ get_slice (heap s') sl = Some (upd i x l) /\ (forall y, get_base (heap s') y = get_base (heap s) y)
  /\ (forall y, get_props (heap s') y = get_props (heap s) y)
  /\ forall y, y <> sl -> get_slice (heap s') y = get_slice (heap s) y.
Proof.
  intros H. unfold slice_set in H. apply bind_inv in H. destruct H as (l & s1 & H1 & H). apply rd_ok in H1. destruct H1 as [-> G].
  destruct (nth_error l i); [|discriminate]. unfold write in H. injection H as <- <-. exists l. split; auto. simpl.
  apply get_slice_nth in G.
  assert (Ka : nth_error (upd sl (CSlice (upd i x l)) (heap s)) sl = Some (CSlice (upd i x l))) by (eapply nth_error_upd_eq; exact G).
  assert (K : forall y, y <> sl -> nth_error (upd sl (CSlice (upd i x l)) (heap s)) y = nth_error (heap s) y).
  { intros y Ny. apply nth_error_upd_neq. auto. }
  split; [apply get_slice_nth; exact Ka|]. repeat split; intros y; unfold get_base, get_props, get_slice; intros;
    solve [now rewrite K | destruct (Nat.eq_dec y sl) as [->|?]; [now rewrite Ka, G|now rewrite K]].
Qed.

(** A parent that is done with. *)
Definition done (h : list cell) (p : addr) (psh : shape) : Prop :=
  exists pb, get_base h p = Some pb /\ b_unwrapped pb = true /\ b_visited pb = false /\ b_shape pb = Some psh /\ plain pat fmt psh.

Lemma unwrap_done n p psh s r s' : done (heap s) p psh -> unwrap n p s = (Ok r, s') -> r = p /\ s' = s.
Proof.
  intros (pb & G & Un & _ & Sh & _) H. destruct n; [discriminate|]. cbn [unwrap] in H.
  rewrite (bind_ok _ _ _ _ _ (rd_some _ _ _ _ G)), Sh, Un in H. injection H as <- <-. auto.
Qed.

Definition means (O : oracle) (sh : shape) (v : gval) : Prop := shape_accepts O [] (fun _ _ => False) sh v.
Lemma plain_means O h P sh v : plain pat fmt sh -> (shape_accepts O h P sh v <-> means O sh v).
Proof. unfold means. destruct sh; simpl; tauto. Qed.
Lemma plain_valid O h a sh v : plain pat fmt sh -> shape_at h a sh -> (valid O h a v <-> means O sh v).
Proof.
  intros P S. rewrite valid_iff. split.
  - intros (sh' & S' & A). rewrite (shape_at_fun _ _ _ _ S' S) in A. now apply plain_means in A.
  - intros A. exists sh. split; auto. now apply plain_means.
Qed.

Lemma more_parents n m sl ss rest : forall k i s u s' ssh shs l,
  get_slice (heap s) sl = Some l -> skipn i l = rest -> ~ In ss rest -> NoDup rest ->
  done (heap s) ss ssh -> Forall2 (done (heap s)) rest shs ->
  unwrap_more_parents (unwrap n) k (inherit m) sl ss i s = (Ok u, s') ->
  (forall x, x <> ss -> get_base (heap s') x = get_base (heap s) x)
  /\ (forall x, get_props (heap s') x = get_props (heap s) x)
  /\ exists sh, done (heap s') ss sh
     /\ forall O v, oracle_wf O -> gval_wf v -> (means O sh v <-> means O ssh v /\ Forall (fun h => means O h v) shs).
Proof.
  induction rest as [|p rest IH]; intros k i s u s' ssh shs l G Sk Nss ND Dn F2 H; (destruct k as [|k]; [discriminate|]);
    cbn [unwrap_more_parents] in H; rewrite (bind_ok _ _ _ _ _ (rd_some _ _ _ _ G)) in H.
  - rewrite (skipn_end _ _ Sk) in H. injection H as _ <-. inversion F2; subst. split; auto. split; auto. exists ssh. split; auto.
    intros O v _ _. split; [intros A; split; auto|tauto].
  - destruct (skipn_step _ _ _ _ Sk) as [E Sk']. rewrite E in H.
    inversion F2 as [|? psh ? shs' Dp F2']; subst. inversion ND as [|? ? Np ND']; subst.
    apply bind_inv in H. destruct H as (us & s1 & H1 & H). destruct (unwrap_done _ _ _ _ _ _ Dp H1) as [-> ->].
    apply bind_inv in H. destruct H as (us' & s1 & H2 & H).
    pose proof Dn as Dn0. pose proof Dp as Dp0.
    destruct Dn as (sb & Gs & Us & Vs & Ss & Pls). destruct Dp as (pb & Gp & Up & Vp & Sp & Plp).
    assert (N : ss <> p) by (intros ->; apply Nss; now left).
    destruct (scalar_inherit _ _ _ _ _ _ _ _ _ _ H2 N Gs Gp Ss Sp Vp Pls Plp) as (-> & Fr & Pr & sh & d & Ei & Gs').
    destruct (plain_inherit _ _ _ _ _ Pls Plp Ei) as [Plr Inter].
    apply bind_inv in H. destruct H as ([] & s2 & H3 & H).
    destruct (slice_set_eff _ _ _ _ _ _ H3) as (l' & Gl' & Gl2 & B2 & P2 & L2).
    rewrite (fo_slice _ _ _ Fr), G in Gl'. injection Gl' as <-.
    destruct (IH k (S i) s2 u s' sh shs' (upd i ss l)) as (R1 & R2 & sh' & R3 & R4); auto.
    + clear. revert i. induction l as [|y l IHl]; intros [|i]; simpl; auto. apply (IHl i).
    + intros I. apply Nss. now right.
    + exists (set_shape (Some sh) (set_desc d sb)). rewrite B2. auto.
    + assert (K : forall q, In q (skipn (S i) l) -> get_base (heap s2) q = get_base (heap s) q).
      { intros q Iq. rewrite B2, (fo_base _ _ _ Fr); auto. intros ->. apply Nss. now right. }
      clear -F2' K. revert K F2'. generalize (skipn (S i) l) as rest0. intros rest0. revert shs'.
      induction rest0 as [|q rest0 IHr]; intros shs' K F; inversion F as [|? qsh ? shs'' (qb & Q1 & Q2) F']; subst; constructor.
      * exists qb. rewrite K by now left. auto.
      * apply IHr; auto. intros q' I. apply K. now right.
    + split; [|split].
      * intros x Nx. rewrite R1, B2, (fo_base _ _ _ Fr); auto.
      * intros x. now rewrite R2, P2, Pr.
      * exists sh'. split; auto. intros O v HO Hv. rewrite (R4 O v HO Hv). 
        pose proof (Inter O [] (fun _ _ => False) v HO Hv) as K. fold (means O sh v) (means O ssh v) (means O psh v) in K. rewrite K.
        split; [intros [[A1 A2] A3]; split; auto|intros [A1 A2]; inversion A2; subst; auto].
Qed.

Theorem parents_combined n a s r s' b sh ps :
  get_base (heap s) a = Some b -> b_unwrapped b = false -> b_alias b = None -> b_link b = None ->
  b_shape b = Some sh -> plain pat fmt sh -> get_props (heap s) (b_fdefs b) = Some [] ->
  get_slice (heap s) (b_inherits b) = Some ps -> NoDup (a :: ps) ->
  (forall p, In p ps -> exists psh, done (heap s) p psh) ->
  unwrap n a s = (Ok r, s') ->
  r = a /\ forall O v, oracle_wf O -> gval_wf v ->
    (valid O (heap s') a v <-> valid O (heap s) a v /\ forall p, In p ps -> valid O (heap s) p v).
Proof.
  intros G Un Al Lk Sh Pl Fd Sl ND Dn H. destruct n as [|n]; [discriminate|]. cbn [unwrap] in H.
  rewrite (bind_ok _ _ _ _ _ (rd_some _ _ _ _ G)), Sh, Un, Al in H.
  apply bind_inv in H. destruct H as ([] & s1 & H1 & H). apply upd_base_eff in H1. destruct H1 as (b' & G' & B1 & F1 & P1).
  rewrite G in G'. injection G' as <-. inversion ND as [|? ? Na ND']; subst.
  assert (G1 : get_base (heap s1) a = Some (set_unwrapped true b)) by (rewrite B1, Nat.eqb_refl; auto).
  assert (K1 : forall x, x <> a -> get_base (heap s1) x = get_base (heap s) x) by (intros; apply (fo_base _ _ _ F1); auto).
  apply bind_inv in H. destruct H as (src & s2 & H2 & H).
  unfold unwrap_parents in H2. rewrite (bind_ok _ _ _ _ _ (rd_some _ _ _ _ G1)) in H2. simpl in H2. rewrite Lk in H2.
  assert (Sl1 : get_slice (heap s1) (b_inherits b) = Some ps) by (rewrite (fo_slice _ _ _ F1); auto).
  rewrite (bind_ok _ _ _ _ _ (rd_some _ _ _ _ Sl1)) in H2.
  assert (Rest : forall s2 tb, get_base (heap s2) a = Some tb -> b_shape tb = Some sh -> b_fdefs tb = b_fdefs b ->
     (forall x, get_props (heap s2) x = get_props (heap s) x) ->
     forall k r s', bind (unwrap_target n (unwrap n) a) (fun _ => bind (unwrap_fdefs n (unwrap n) a) (fun _ => k)) s2 = (Ok r, s') ->
     (k : M addr) s2 = (Ok r, s')).
  { clear H H2. intros s3 tb Gt St Ft Pt k r0 s0 H. apply bind_inv in H. destruct H as ([] & s4 & H4 & H).
    unfold unwrap_target in H4. rewrite (bind_ok _ _ _ _ _ (rd_some _ _ _ _ Gt)), St in H4.
    assert (s4 = s3). { destruct sh; simpl in Pl; try contradiction; injection H4 as <-; auto. }
    subst s4. apply bind_inv in H. destruct H as ([] & s4 & H5 & H). unfold unwrap_fdefs in H5.
    rewrite (bind_ok _ _ _ _ _ (rd_some _ _ _ _ Gt)) in H5. destruct n as [|n']; [discriminate|]. simpl in H5.
    assert (Gp : get_props (heap s3) (b_fdefs tb) = Some []) by (rewrite Pt, Ft; auto).
    rewrite (bind_ok _ _ _ _ _ (rd_some _ _ _ _ Gp)) in H5. injection H5 as <-. exact H. }
  destruct ps as [|p0 ps].
  - injection H2 as <- <-. apply (Rest s1 (set_unwrapped true b)) in H; auto.
    apply bind_inv in H. destruct H as (a' & s3 & H3 & H). injection H3 as <- <-.
    unfold put_shape in H. unfold bind, ret in H. injection H as <- <-. split; auto. intros O v _ _. simpl.
    rewrite !(plain_valid O _ a sh v Pl); [tauto|exists b; auto|]. exists (set_unwrapped true b); split; auto.
  - assert (Dn1 : forall p psh, In p (p0 :: ps) -> done (heap s) p psh -> done (heap s1) p psh).
    { intros p psh I (pb & Q1 & Q2). exists pb. rewrite K1; auto. intros ->. contradiction. }
    destruct (Dn p0 (or_introl eq_refl)) as (sh0 & D0).
    apply bind_inv in H2. destruct H2 as (ss & s3 & H3 & H2).
    destruct (unwrap_done _ _ _ _ _ _ (Dn1 _ _ (or_introl eq_refl) D0) H3) as [-> ->].
    apply bind_inv in H2. destruct H2 as ([] & s3 & H4 & H2).
    destruct (slice_set_eff _ _ _ _ _ _ H4) as (l' & Gl' & Gl2 & B2 & P2 & L2). rewrite Sl1 in Gl'. injection Gl' as <-. simpl in Gl2.
    apply bind_inv in H2. destruct H2 as ([] & s4 & H5 & H2). injection H2 as <- <-.
    inversion ND' as [|? ? N0 NDp]; subst.
    assert (Sh2 : exists shs, Forall2 (done (heap s)) ps shs).
    { assert (Dp : forall p, In p ps -> exists psh, done (heap s) p psh) by (intros; apply Dn; now right).
      clear -Dp. induction ps as [|p ps IH]; [exists []; constructor|]. destruct (Dp p (or_introl eq_refl)) as (x & X).
      destruct IH as (xs & XS); [intros; apply Dp; now right|]. exists (x :: xs). now constructor. }
    destruct Sh2 as (shs & F2).
    assert (Tr : forall p psh, In p (p0 :: ps) -> done (heap s) p psh -> done (heap s3) p psh).
    { intros p psh I D. destruct (Dn1 p psh I D) as (pb & Q1 & Q2). exists pb. rewrite B2. auto. }
    destruct (more_parents n n (b_inherits b) p0 ps n 1 s3 tt s4 sh0 shs (p0 :: ps) Gl2 eq_refl N0 NDp (Tr _ _ (or_introl eq_refl) D0)) with (2 := H5)
      as (R1 & R2 & sh' & R3 & R4).
    { clear -F2 Tr. assert (T : forall p psh, In p ps -> done (heap s) p psh -> done (heap s3) p psh) by (intros; apply Tr; auto; now right).
      clear Tr. induction F2; constructor; auto; [apply T; auto; now left|apply IHF2; intros; apply T; auto; now right]. }
    assert (G4 : get_base (heap s4) a = Some (set_unwrapped true b)).
    { rewrite R1, B2; auto. intros ->. apply Na. now left. }
    apply (Rest s4 (set_unwrapped true b)) in H; auto; [|intros x; now rewrite R2, P2, P1].
    apply bind_inv in H. destruct H as (a' & s5 & H6 & H). unfold put_shape in H. unfold bind, ret in H. injection H as <- <-.
    destruct R3 as (pb & Q1 & Q2 & Q3 & Q4 & Q5).
    assert (N : a <> p0) by (intros ->; apply Na; now left).
    destruct (scalar_inherit _ _ _ _ _ _ _ _ sh sh' H6 N G4 Q1 Sh Q4 Q3 Pl Q5) as (-> & Fr & Pr & shr & d & Ei & Gr).
    destruct (plain_inherit _ _ _ _ _ Pl Q5 Ei) as [Plr Inter]. split; auto. intros O v HO Hv.
    pose proof (Inter O [] (fun _ _ => False) v HO Hv) as K. fold (means O sh v) (means O sh' v) (means O shr v) in K.
    rewrite (plain_valid O _ a shr v Plr) by (simpl; eexists; split; [exact Gr|reflexivity]). rewrite K, (R4 O v HO Hv).
    rewrite (plain_valid O _ a sh v Pl) by (exists b; auto).
    assert (V0 : valid O (heap s) p0 v <-> means O sh0 v).
    { destruct D0 as (p0b & X1 & _ & _ & X2 & X3). apply plain_valid; auto. exists p0b; auto. }
    assert (Vs : Forall (fun h => means O h v) shs <-> forall p, In p ps -> valid O (heap s) p v).
    { clear -F2. induction F2 as [|p psh ps shs (pb & X1 & _ & _ & X2 & X3) F IH]; simpl; [split; [contradiction|constructor]|].
      assert (V : valid O (heap s) p v <-> means O psh v) by (apply plain_valid; auto; exists pb; auto).
      split.
      - intros A p' [<-|I]; inversion A; subst; [now apply V|]. now apply IH.
      - intros A. constructor; [apply V; auto|]. apply IH. auto. }
    rewrite Vs. split.
    + intros [A1 [A2 A3]]. split; auto. intros p [<-|I]; [now apply V0|auto].
    + intros [A1 A2]. split; auto. split; [apply V0; apply A2; now left|]. intros p I. apply A2. now right.
Qed.
End Parents.

(** * The statements of the property theorems *)
Section Statements.
Variable pat : string.
Variable fmt : option string.
Variable U : addr -> Prop.

Lemma fits_target h vis t src ns n s r s' : h = heap s -> fits pat fmt U h vis t src ns -> ~ U t -> inherit n t src s = (Ok r, s') -> r = t.
Proof.
  intros -> F NU H.
  assert (N : t <> src) by (intros ->; apply NU; eapply fits_src; exact F).
  assert (K : exists tsh ssh, node (heap s) t src tsh ssh /\ simple_pair tsh ssh).
  { destruct F as [? ? ? tsh ssh Nd _ _ Pt Ps|? ? ? f g ? Nd|? ? ? f g ? Nd]; [exists tsh, ssh|exists (SArray f), (SArray g)|exists (SObject f), (SObject g)];
      (split; [exact Nd|]); [destruct tsh, ssh; simpl in Pt, Ps; try contradiction|..]; (split; [discriminate|split; discriminate]). }
  destruct K as (tsh & ssh & ((tb & T & Tsh) & sb & S & Ssh & V) & SP).
  destruct (inherit_opened _ _ _ _ _ _ _ _ _ _ H T S N Tsh Ssh V SP) as (m & s1 & s2 & _ & -> & _). reflexivity.
Qed.

Theorem derived_subset n t src ns s r s' :
  fits pat fmt U (heap s) [] t src ns ->
  NoDup ns -> (forall x, In x ns -> ~ U x) -> sealed U (heap s) ->
  inherit n t src s = (Ok r, s') ->
  r = t /\ forall O v, oracle_wf O -> value_wf v -> valid O (heap s') t v ->
    valid O (heap s) src v /\ valid O (heap s') src v.
Proof.
  intros F ND Dis SU H. split; [eapply fits_target; eauto; apply Dis; eapply fits_head; exact F|].
  destruct (inherit_derives pat fmt U n [] t src ns s r s' F) as (Fr & _ & V); auto.
  { split; auto. split; auto. split; auto. intros x []. }
  intros O v HO Hv A. pose proof (V O v HO Hv A) as A'. split; auto.
  refine (proj1 (valid_frame U (fun x => In x ns) O s s' src v SU _ Fr _) A'); [intros x Ux I; now apply (Dis x)|]. eapply fits_src; exact F.
Qed.

Theorem derived_elsewhere n t src ns s r s' :
  fits pat fmt U (heap s) [] t src ns ->
  NoDup ns -> (forall x, In x ns -> ~ U x) -> sealed U (heap s) ->
  inherit n t src s = (Ok r, s') ->
  (forall x, ~ In x ns -> get_base (heap s') x = get_base (heap s) x /\ get_props (heap s') x = get_props (heap s) x)
  /\ (forall x, get_slice (heap s') x = get_slice (heap s) x)
  /\ forall O x v, U x -> (valid O (heap s') x v <-> valid O (heap s) x v).
Proof.
  intros F ND Dis SU H.
  destruct (inherit_derives pat fmt U n [] t src ns s r s' F) as (Fr & _ & _); auto.
  { split; auto. split; auto. split; auto. intros x []. }
  split; [|split].
  - intros x N. split; [apply (fo_base _ _ _ Fr)|apply (fo_props _ _ _ Fr)]; auto.
  - intros x. apply (fo_slice _ _ _ Fr).
  - intros O x v Ux. symmetry. refine (valid_frame U (fun x => In x ns) O s s' x v SU _ Fr Ux). intros y Uy I. now apply (Dis y).
Qed.

Theorem derived_open n t src ns s r s' f g :
  shape_at (heap s) t (SObject f) -> shape_at (heap s) src (SObject g) ->
  fits pat fmt U (heap s) [] t src ns ->
  NoDup ns -> (forall x, In x ns -> ~ U x) -> sealed U (heap s) ->
  inherit n t src s = (Ok r, s') ->
  o_addl g <> Some false
  /\ forall O v, oracle_wf O -> value_wf v -> valid O (heap s') t v -> valid O (heap s') src v.
Proof.
  intros T S F ND Dis SU H. split.
  - destruct F as [? ? ? tsh ssh ((tb & G & Sh) & sb & G' & Sh' & _) _ _ Pt Ps|? ? ? f1 g1 ? ((tb & G & Sh) & _)|? ? ? f1 g1 ? (_ & sb & G' & Sh' & _) _ _ Cl _ _ _].
    + destruct T as (b & G1 & Sh1). rewrite G in G1. injection G1 as <-. rewrite Sh in Sh1. injection Sh1 as ->. contradiction.
    + destruct T as (b & G1 & Sh1). rewrite G in G1. injection G1 as <-. congruence.
    + destruct S as (b & G1 & Sh1). rewrite G' in G1. injection G1 as <-. rewrite Sh' in Sh1. injection Sh1 as ->. exact Cl.
  - intros O v HO Hv A. eapply (proj2 (derived_subset _ _ _ _ _ _ _ F ND Dis SU H)); eauto.
Qed.
End Statements.
