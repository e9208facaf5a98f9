(** Proofs about cloning (C24, C25). *)
From Coq Require Import ZArith List String Bool Lia.
From Verif Require Import Base Scalars Heap Heap_lemmas Validate Validate_proofs Spec_Validate
  Spec_Model Spec_Clone.
Import ListNotations.
Open Scope list_scope.
Open Scope nat_scope.

(** * Reads in an extended heap *)
Section Ext.
Variables s0 s : st.
Hypothesis X : extends s0 s.

Lemma ext_base a b : get_base (heap s0) a = Some b -> get_base (heap s) a = Some b.
Proof. rewrite !get_base_nth. now apply extends_nth. Qed.
Lemma ext_props a b : get_props (heap s0) a = Some b -> get_props (heap s) a = Some b.
Proof. rewrite !get_props_nth. now apply extends_nth. Qed.
Lemma ext_facets a b : get_facets (heap s0) a = Some b -> get_facets (heap s) a = Some b.
Proof. rewrite !get_facets_nth. now apply extends_nth. Qed.
Lemma ext_slice a b : get_slice (heap s0) a = Some b -> get_slice (heap s) a = Some b.
Proof. rewrite !get_slice_nth. now apply extends_nth. Qed.
Lemma ext_dt a b : get_dt (heap s0) a = Some b -> get_dt (heap s) a = Some b.
Proof. rewrite !get_dt_nth. now apply extends_nth. Qed.
Lemma ext_length : List.length (heap s0) <= List.length (heap s).
Proof. destruct X as ((x & E) & _). rewrite E, app_length. lia. Qed.
End Ext.

Lemma extends_after {A} (m : M A) s r s' : pres_at extends s m -> m s = (r, s') -> extends s s'.
Proof. unfold pres_at, after. intros H E. now rewrite E in H. Qed.

(** Direct references of the parts of a base in a well-formed heap. *)
Section Parts.
Variable h : list cell.
Hypothesis W : wf_heap h.
Definition old (a : addr) : Prop := exists b, get_base h a = Some b.

Lemma wf_fdefs a b m : get_base h a = Some b -> get_props h (b_fdefs b) = Some m ->
  forall k p, In (k, p) m -> old (p_base p).
Proof. intros E F k p I. eapply (proj2 (W _ _ E)). econstructor; eauto. Qed.
Lemma wf_alias a b x : get_base h a = Some b -> b_alias b = Some x -> old x.
Proof. intros E F. eapply (proj2 (W _ _ E)). now apply rf_alias. Qed.
Lemma wf_inherits a b l x : get_base h a = Some b -> get_slice h (b_inherits b) = Some l -> In x l -> old x.
Proof. intros E F I. eapply (proj2 (W _ _ E)). eapply rf_parent; eauto. Qed.
Lemma wf_link a b d x : get_base h a = Some b -> b_link b = Some d -> get_dt h d = Some (Some x) -> old x.
Proof. intros E F I. eapply (proj2 (W _ _ E)). eapply rf_link; eauto. Qed.
Lemma wf_child a b sh x : get_base h a = Some b -> b_shape b = Some sh -> child h sh x -> old x.
Proof. intros E F I. eapply (proj2 (W _ _ E)). eapply rf_child; eauto. Qed.
End Parts.

(** * C25: termination *)
Section Term.
Variable s0 : st.
Hypothesis W : wf_heap (heap s0).
Notation h0 := (heap s0).

Definition fresh_cell (cm : cmap) (c : cell) : bool :=
  match c with
  | CBase b => match cm_get (b_id b) cm with None => true | _ => false end
  | _ => false
  end.
Definition undone (cm : cmap) : nat := List.length (filter (fresh_cell cm) h0).
Definition dom_le (cm cm' : cmap) : Prop := forall k, cm_get k cm <> None -> cm_get k cm' <> None.

Lemma dom_le_refl cm : dom_le cm cm. Proof. intros k; auto. Qed.
Lemma dom_le_trans a b c : dom_le a b -> dom_le b c -> dom_le a c.
Proof. intros H K k; auto. Qed.

Lemma filter_le {A} (f g : A -> bool) l :
  (forall x, f x = true -> g x = true) -> List.length (filter f l) <= List.length (filter g l).
Proof.
  intros H. induction l as [|x l IH]; simpl; auto.
  destruct (f x) eqn:F; [rewrite (H _ F); simpl; lia|]. destruct (g x); simpl; lia.
Qed.
Lemma filter_lt {A} (f g : A -> bool) l x :
  (forall x, f x = true -> g x = true) -> In x l -> f x = false -> g x = true ->
  List.length (filter f l) < List.length (filter g l).
Proof.
  intros H I F G. induction l as [|y l IH]; [easy|]. simpl in I. destruct I as [->|I]; simpl.
  - rewrite F, G. simpl. pose proof (filter_le f g l H). lia.
  - specialize (IH I). destruct (f y) eqn:Fy; [rewrite (H _ Fy); simpl; lia|]. destruct (g y); simpl; lia.
Qed.

Lemma undone_le cm cm' : dom_le cm cm' -> undone cm' <= undone cm.
Proof.
  intros D. apply filter_le. intros [b| | | |]; simpl; auto.
  destruct (cm_get (b_id b) cm') eqn:E; [discriminate|]. intros _.
  destruct (cm_get (b_id b) cm) eqn:F; auto. exfalso. apply (D (b_id b)); congruence.
Qed.
Lemma undone_cons cm a b c : get_base h0 a = Some b -> cm_get (b_id b) cm = None ->
  undone ((b_id b, c) :: cm) < undone cm.
Proof.
  intros E N. apply (filter_lt _ _ _ (CBase b)).
  - intros [x| | | |]; simpl; auto. destruct (Z.eqb (b_id x) (b_id b)) eqn:Q; [discriminate|auto].
  - apply get_base_nth in E. eapply nth_error_In; eauto.
  - simpl. now rewrite Z.eqb_refl.
  - simpl. now rewrite N.
Qed.
Lemma dom_le_cons cm k c : dom_le cm ((k, c) :: cm).
Proof. intros x. simpl. destruct (Z.eqb x k); congruence. Qed.

Definition runs {A} (m : M (A * cmap)) (cm : cmap) (s : st) : Prop :=
  exists x cm' s', m s = (Ok (x, cm'), s') /\ extends s0 s' /\ dom_le cm cm'.

Section Rec.
Variable rec : cmap -> addr -> M (addr * cmap).
Variable bound : nat.
Hypothesis Hrec : forall cm a s, extends s0 s -> old h0 a -> undone cm < bound -> runs (rec cm a) cm s.

Lemma clone_list_runs l : forall cm s, extends s0 s -> (forall a, In a l -> old h0 a) ->
  undone cm < bound -> runs (clone_list rec cm l) cm s.
Proof.
  induction l as [|a l IH]; intros cm s X O U; unfold runs; simpl.
  - exists [], cm, s. repeat split; auto using dom_le_refl; apply X.
  - destruct (Hrec cm a s X (O a (or_introl eq_refl)) U) as (c & cm1 & s1 & E1 & X1 & D1).
    rewrite (bind_ok _ _ _ _ _ E1). simpl.
    destruct (IH cm1 s1 X1) as (l' & cm2 & s2 & E2 & X2 & D2).
    { intros; apply O; simpl; auto. }
    { pose proof (undone_le _ _ D1). lia. }
    exists (c :: l'), cm2, s2. rewrite (bind_ok _ _ _ _ _ E2).
    repeat split; auto; try apply X2. eapply dom_le_trans; eauto.
Qed.

Lemma clone_props_runs (l : omap prop) : forall cm s, extends s0 s ->
  (forall k p, In (k, p) l -> old h0 (p_base p)) ->
  undone cm < bound -> runs (clone_props rec cm l) cm s.
Proof.
  induction l as [|[k p] l IH]; intros cm s X O U; unfold runs; simpl.
  - exists [], cm, s. repeat split; auto using dom_le_refl; apply X.
  - destruct (Hrec cm (p_base p) s X (O k p (or_introl eq_refl)) U) as (c & cm1 & s1 & E1 & X1 & D1).
    rewrite (bind_ok _ _ _ _ _ E1). simpl.
    destruct (IH cm1 s1 X1) as (l' & cm2 & s2 & E2 & X2 & D2).
    { intros; eapply O; simpl; eauto. }
    { pose proof (undone_le _ _ D1). lia. }
    eexists _, cm2, s2. rewrite (bind_ok _ _ _ _ _ E2). split; [reflexivity|].
    split; auto. eapply dom_le_trans; eauto.
Qed.

Lemma clone_opt_runs o cm s : extends s0 s -> (forall a, o = Some a -> old h0 a) ->
  undone cm < bound -> runs (clone_opt rec cm o) cm s.
Proof.
  intros X O U. unfold runs. destruct o as [a|]; simpl.
  - destruct (Hrec cm a s X (O a eq_refl) U) as (c & cm1 & s1 & E1 & X1 & D1).
    rewrite (bind_ok _ _ _ _ _ E1). exists (Some c), cm1, s1. auto.
  - exists None, cm, s. repeat split; auto using dom_le_refl; apply X.
Qed.

Lemma runs_alloc s x : extends s0 s -> exists a s', alloc x s = (Ok a, s') /\ extends s0 s'.
Proof.
  intros X. do 2 eexists. split; [reflexivity|]. eapply extends_trans; [exact X|].
  apply (extends_alloc x s).
Qed.

Lemma clone_optprops_runs o cm s : extends s0 s ->
  (forall m, o = Some m -> exists l, get_props h0 m = Some l /\ forall k p, In (k, p) l -> old h0 (p_base p)) ->
  undone cm < bound -> runs (clone_optprops rec cm o) cm s.
Proof.
  intros X O U. unfold runs. destruct o as [m|]; simpl.
  - destruct (O m eq_refl) as (l & El & Ol).
    rewrite (bind_ok _ _ _ _ _ (rd_some _ _ _ _ (ext_props _ _ X _ _ El))).
    destruct (clone_props_runs l cm s X Ol U) as (l' & cm1 & s1 & E1 & X1 & D1).
    rewrite (bind_ok _ _ _ _ _ E1). simpl.
    destruct (runs_alloc s1 (CProps l') X1) as (a & s2 & E2 & X2).
    exists (Some a), cm1, s2. rewrite (bind_ok _ _ _ _ _ E2). auto.
  - exists None, cm, s. repeat split; auto using dom_le_refl; apply X.
Qed.

Lemma clone_shape_runs a b sh cm s : get_base h0 a = Some b -> b_shape b = Some sh ->
  extends s0 s -> undone cm < bound -> runs (clone_shape rec cm sh) cm s.
Proof.
  intros Eb Es X U.
  assert (C : closed_shape h0 sh).
  { destruct (proj1 (W _ _ Eb)) as (_ & _ & _ & _ & sh' & E' & C). congruence. }
  assert (Def : runs (ret (sh, cm)) cm s).
  { exists sh, cm, s. repeat split; auto using dom_le_refl; apply X. }
  unfold runs. destruct sh; simpl; try exact Def.
  - destruct (clone_opt_runs (a_items f) cm s X) as (o & cm1 & s1 & E1 & X1 & D1); auto.
    { intros x Ex. eapply wf_child; eauto. now constructor. }
    rewrite (bind_ok _ _ _ _ _ E1). eexists _, cm1, s1. split; [reflexivity|]. auto.
  - assert (G : forall o, (exists ps, props_of h0 o ps) ->
        (forall ps k p, props_of h0 o ps -> In (k, p) ps -> old h0 (p_base p)) ->
        forall m, o = Some m -> exists l, get_props h0 m = Some l /\ forall k p, In (k, p) l -> old h0 (p_base p)).
    { intros o (ps & Q) R m ->. destruct Q as [[? _]|(m' & Q & Q')]; [discriminate|].
      injection Q as <-. exists ps. split; auto. intros. eapply R; eauto. right; eauto. }
    destruct C as (_ & C1 & C2).
    destruct (clone_optprops_runs (o_props f) cm s X) as (o1 & cm1 & s1 & E1 & X1 & D1); auto.
    { apply G; auto. intros. eapply wf_child; eauto. eapply ch_prop; eauto. }
    rewrite (bind_ok _ _ _ _ _ E1). simpl.
    destruct (clone_optprops_runs (o_pprops f) cm1 s1 X1) as (o2 & cm2 & s2 & E2 & X2 & D2); auto.
    { apply G; auto. intros. eapply wf_child; eauto. eapply ch_pprop; eauto. }
    { pose proof (undone_le _ _ D1). lia. }
    rewrite (bind_ok _ _ _ _ _ E2). eexists _, cm2, s2. split; [reflexivity|].
    split; auto. eapply dom_le_trans; eauto.
  - destruct C as (_ & l & El).
    rewrite (bind_ok _ _ _ _ _ (rd_some _ _ _ _ (ext_slice _ _ X _ _ El))).
    destruct (clone_list_runs l cm s X) as (l' & cm1 & s1 & E1 & X1 & D1); auto.
    { intros. eapply wf_child; eauto. eapply ch_member; eauto. }
    rewrite (bind_ok _ _ _ _ _ E1). simpl.
    destruct (runs_alloc s1 (CSlice l') X1) as (x & s2 & E2 & X2).
    rewrite (bind_ok _ _ _ _ _ E2). eexists _, cm1, s2. split; [reflexivity|]. auto.
Qed.
End Rec.

Lemma clone_runs n : forall cm a s, extends s0 s -> old h0 a -> undone cm < n ->
  runs (clone n cm a) cm s.
Proof.
  induction n as [|n IH]; intros cm a s X (b & Eb) U; [lia|]. unfold runs. simpl.
  destruct (proj1 (W _ _ Eb)) as ((fm & Ef) & (fd & Ed) & (inh & Ei) & Lk & sh & Es & C).
  pose proof (ext_base _ _ X _ _ Eb) as Eb'.
  rewrite (bind_ok _ _ _ _ _ (rd_some _ _ _ _ Eb')).
  destruct (cm_get (b_id b) cm) as [a'|] eqn:G.
  { exists a', cm, s. repeat split; auto using dom_le_refl; apply X. }
  destruct (runs_alloc s (CBase b) X) as (c & s1 & E1 & X1). rewrite (bind_ok _ _ _ _ _ E1).
  pose proof (undone_cons cm a b c Eb G) as U1. cbv zeta. set (cm1 := (b_id b, c) :: cm) in *.
  assert (D1 : dom_le cm cm1) by apply dom_le_cons.
  rewrite (bind_ok _ _ _ _ _ (rd_some _ _ _ _ (ext_facets _ _ X1 _ _ Ef))).
  rewrite (bind_ok _ _ _ _ _ (rd_some _ _ _ _ (ext_props _ _ X1 _ _ Ed))).
  destruct (clone_props_runs (clone n) n IH fd cm1 s1 X1) as (fd' & cm2 & s2 & E2 & X2 & D2).
  { intros; eapply wf_fdefs; eauto. }
  { lia. }
  rewrite (bind_ok _ _ _ _ _ E2). simpl.
  pose proof (undone_le _ _ D2).
  destruct (clone_opt_runs (clone n) n IH (b_alias b) cm2 s2 X2) as (al & cm3 & s3 & E3 & X3 & D3).
  { intros; eapply wf_alias; eauto. }
  { lia. }
  rewrite (bind_ok _ _ _ _ _ E3). simpl.
  pose proof (undone_le _ _ D3).
  rewrite (bind_ok _ _ _ _ _ (rd_some _ _ _ _ (ext_slice _ _ X3 _ _ Ei))).
  destruct (clone_list_runs (clone n) n IH inh cm3 s3 X3) as (inh' & cm4 & s4 & E4 & X4 & D4).
  { intros; eapply wf_inherits; eauto. }
  { lia. }
  rewrite (bind_ok _ _ _ _ _ E4). simpl.
  pose proof (undone_le _ _ D4).
  assert (L5 : exists l' cm5 s5, (match b_link b with
                | None => ret (None, cm4)
                | Some l =>
                    bind (rd get_dt l) (fun d =>
                    match d with
                    | None => mpanic
                    | Some ds =>
                        bind (clone n cm4 ds) (fun r =>
                        bind (alloc (CDT (Some (fst r)))) (fun l' => ret (Some l', snd r)))
                    end)
                end) s4 = (Ok (l', cm5), s5) /\ extends s0 s5 /\ dom_le cm4 cm5).
  { destruct (b_link b) as [d|] eqn:El.
    - destruct (Lk d eq_refl) as (x & Ex).
      rewrite (bind_ok _ _ _ _ _ (rd_some _ _ _ _ (ext_dt _ _ X4 _ _ Ex))).
      destruct (IH cm4 x s4 X4) as (y & cm5 & s5 & E5 & X5 & D5).
      { eapply wf_link; eauto. }
      { lia. }
      rewrite (bind_ok _ _ _ _ _ E5). simpl.
      destruct (runs_alloc s5 (CDT (Some y)) X5) as (q & s6 & E6 & X6).
      rewrite (bind_ok _ _ _ _ _ E6). exists (Some q), cm5, s6. auto.
    - exists None, cm4, s4. split; [reflexivity|]. split; auto using dom_le_refl. }
  destruct L5 as (l' & cm5 & s5 & E5 & X5 & D5). rewrite (bind_ok _ _ _ _ _ E5). simpl.
  pose proof (undone_le _ _ D5). rewrite Es.
  destruct (clone_shape_runs (clone n) n IH a b sh cm5 s5 Eb Es X5) as (sh' & cm6 & s6 & E6 & X6 & D6).
  { lia. }
  rewrite (bind_ok _ _ _ _ _ E6). simpl.
  destruct (runs_alloc s6 (CFacets fm) X6) as (q1 & s7 & E7 & X7). rewrite (bind_ok _ _ _ _ _ E7).
  destruct (runs_alloc s7 (CProps fd') X7) as (q2 & s8 & E8 & X8). rewrite (bind_ok _ _ _ _ _ E8).
  destruct (runs_alloc s8 (CSlice inh') X8) as (q3 & s9 & E9 & X9). rewrite (bind_ok _ _ _ _ _ E9).
  unfold bind at 1. simpl. eexists _, cm6, _. split; [reflexivity|]. split.
  - apply (extends_write s0 s9); auto. unfold alloc in E1. injection E1 as <- _.
    apply (ext_length _ _ X).
  - do 5 (eapply dom_le_trans; [eassumption|]). assumption.
Qed.
End Term.

Theorem clone_detached_total s a b n : wf_heap (heap s) -> get_base (heap s) a = Some b ->
  List.length (heap s) < n -> exists c s', clone_detached n a s = (Ok c, s').
Proof.
  intros W E L. destruct (clone_runs s W n [] a s (extends_refl s)) as (c & cm & s' & R & _).
  - now exists b.
  - eapply Nat.le_lt_trans; [|exact L]. unfold undone. generalize (fresh_cell []). intros f.
    clear. induction (heap s) as [|x l IH]; simpl; [lia|]. destruct (f x); simpl; lia.
  - unfold clone_detached. rewrite (bind_ok _ _ _ _ _ R). simpl. unfold ret. eauto.
Qed.

(** * C24: a copy *)

Lemma Forall2_mono {A B} (P Q : A -> B -> Prop) l l' :
  (forall x y, P x y -> Q x y) -> Forall2 P l l' -> Forall2 Q l l'.
Proof. intros H. induction 1; constructor; auto. Qed.

Lemma opt_rel_mono {A B} (P Q : A -> B -> Prop) o o' :
  (forall x y, P x y -> Q x y) -> opt_rel P o o' -> opt_rel Q o o'.
Proof. destruct o, o'; simpl; auto. Qed.

Lemma base_copy_mono h0 h h2 (phi phi2 : addr -> addr -> Prop) b b' :
  (forall a m, get_props h a = Some m -> get_props h2 a = Some m) ->
  (forall a m, get_facets h a = Some m -> get_facets h2 a = Some m) ->
  (forall a m, get_slice h a = Some m -> get_slice h2 a = Some m) ->
  (forall a m, get_dt h a = Some m -> get_dt h2 a = Some m) ->
  (forall x y, phi x y -> phi2 x y) ->
  base_copy h0 h phi b b' -> base_copy h0 h2 phi2 b b'.
Proof.
  intros G1 G2 G3 G4 P B. unfold base_copy in *.
  destruct B as (? & ? & ? & ? & ? & ? & ? & ? & ? & ? & ? & ? & ? & F & D & I & A & L & S).
  assert (PC : forall m m', props_copy h0 h phi m m' -> props_copy h0 h2 phi2 m m').
  { intros m m' (l & l' & E & E' & K). exists l, l'. repeat split; auto.
    eapply Forall2_mono; [|exact K]. intros x y (? & ? & ? & ?). repeat split; auto. }
  assert (SC : forall m m', slice_copy h0 h phi m m' -> slice_copy h0 h2 phi2 m m').
  { intros m m' (l & l' & E & E' & K). exists l, l'. repeat split; auto.
    eapply Forall2_mono; eauto. }
  repeat (split; [assumption|]).
  split. { destruct F as (m & F & F'). exists m. auto. }
  split; [auto|]. split; [auto|]. split; [eapply opt_rel_mono; eauto|].
  split.
  { eapply opt_rel_mono; [|exact L]. intros x y (a & a' & E & E' & K). exists a, a'. auto. }
  eapply opt_rel_mono; [|exact S]. intros sh sh' K. destruct sh, sh'; simpl in *; auto.
  - destruct K as (K & ? & ? & ?). repeat split; auto. eapply opt_rel_mono; eauto.
  - destruct K as (? & ? & ? & K & K' & ? & ?). repeat split; auto; eapply opt_rel_mono; eauto.
  - destruct K as (? & K). auto.
Qed.

Section CopyOf.
(** [s0] holds the originals; the copying starts in [sb], which extends it. *)
Variables s0 sb : st.
Hypothesis W : wf_heap (heap s0).
Hypothesis X0 : extends s0 sb.
Notation h0 := (heap s0).
Notation n0 := (List.length (heap sb)).
Lemma up s : extends sb s -> extends s0 s.
Proof. intros H. eapply extends_trans; eauto. Qed.

Definition phi (cm : cmap) (x y : addr) : Prop :=
  exists b, get_base h0 x = Some b /\ cm_get (b_id b) cm = Some y.
Definition cm_sub (cm cm' : cmap) : Prop := forall k y, cm_get k cm = Some y -> cm_get k cm' = Some y.
Definition own_ge (b : base) : Prop :=
  (forall c, owns b c -> n0 <= c) /\ (forall c, b_link b = Some c -> n0 <= c).
Definition done (h : list cell) (cm : cmap) (x y : addr) : Prop :=
  exists b b', get_base h0 x = Some b /\ get_base h y = Some b' /\ base_copy h0 h (phi cm) b b'
    /\ own_ge b'.
Definition newdone (s : st) (cm : cmap) (s' : st) (cm' : cmap) : Prop :=
  forall k y, cm_get k cm' = Some y -> cm_get k cm = Some y \/
    exists x b, get_base h0 x = Some b /\ b_id b = k /\ List.length (heap s) <= y
      /\ done (heap s') cm' x y.
Definition cm_good (cm : cmap) (s : st) : Prop :=
  (forall k y, cm_get k cm = Some y -> n0 <= y < List.length (heap s))
  /\ (forall k k' y, cm_get k cm = Some y -> cm_get k' cm = Some y -> k = k').

Record step (s : st) (cm : cmap) (s' : st) (cm' : cmap) : Prop := {
  st_ext : extends s s';
  st_sub : cm_sub cm cm';
  st_new : newdone s cm s' cm';
  st_good : cm_good cm' s'
}.

Lemma phi_mono cm cm' x y : cm_sub cm cm' -> phi cm x y -> phi cm' x y.
Proof. intros S (b & E & G). exists b. auto. Qed.

Lemma done_mono s s' cm cm' x y : extends s s' -> cm_sub cm cm' ->
  done (heap s) cm x y -> done (heap s') cm' x y.
Proof.
  intros X S (b & b' & E & E' & C & O). exists b, b'. split; auto. split; [eapply ext_base; eauto|]. split; auto.
  eapply base_copy_mono; [..|exact C]; intros; eauto using ext_props, ext_facets, ext_slice, ext_dt, phi_mono.
Qed.

Lemma cm_good_ext cm s s' : extends s s' -> cm_good cm s -> cm_good cm s'.
Proof.
  intros X (A & B). split; auto. intros k y E. pose proof (ext_length _ _ X).
  specialize (A _ _ E). lia.
Qed.

Lemma step_ext s cm s' : cm_good cm s -> extends s s' -> step s cm s' cm.
Proof.
  intros G X. split; auto.
  - now intros k y.
  - intros k y; auto.
  - eapply cm_good_ext; eauto.
Qed.

Lemma step_trans s1 m1 s2 m2 s3 m3 : step s1 m1 s2 m2 -> step s2 m2 s3 m3 -> step s1 m1 s3 m3.
Proof.
  intros [X S N G] [X' S' N' G']. split; auto.
  - eapply extends_trans; eauto.
  - intros k y E. auto.
  - intros k y E. destruct (N' _ _ E) as [E'|(x & b & Eb & Ek & L & D)].
    + destruct (N _ _ E') as [?|(x & b & Eb & Ek & L & D)]; auto.
      right. exists x, b. repeat split; auto. eapply done_mono; eauto.
    + right. exists x, b. repeat split; auto. pose proof (ext_length _ _ X). lia.
Qed.

Section Rec.
Variable rec : cmap -> addr -> M (addr * cmap).
Hypothesis Hrec : forall cm a s c cm' s', extends sb s -> cm_good cm s -> old h0 a ->
  rec cm a s = (Ok (c, cm'), s') -> step s cm s' cm' /\ phi cm' a c.

Lemma clone_list_copy l : forall cm s l' cm' s', extends sb s -> cm_good cm s ->
  (forall a, In a l -> old h0 a) -> clone_list rec cm l s = (Ok (l', cm'), s') ->
  step s cm s' cm' /\ Forall2 (phi cm') l l'.
Proof.
  induction l as [|a l IH]; intros cm s l' cm' s' X G O H; simpl in H.
  - injection H as <- <- <-. split; auto. apply step_ext; auto using extends_refl.
  - apply bind_inv in H. destruct H as ([c cm1] & s1 & E1 & H).
    apply bind_inv in H. destruct H as ([l2 cm2] & s2 & E2 & H). injection H as <- <- <-. simpl in *.
    destruct (Hrec _ _ _ _ _ _ X G (O a (or_introl eq_refl)) E1) as (S1 & P1).
    assert (X1 : extends sb s1) by (eapply extends_trans; [exact X|apply S1]).
    destruct (IH cm1 s1 l2 cm2 s2 X1 (st_good _ _ _ _ S1)) as (S2 & P2); auto.
    split; [eapply step_trans; eauto|]. constructor; auto. eapply phi_mono; eauto. apply S2.
Qed.

Lemma clone_props_copy (l : omap prop) : forall cm s l' cm' s', extends sb s -> cm_good cm s ->
  (forall k p, In (k, p) l -> old h0 (p_base p)) -> clone_props rec cm l s = (Ok (l', cm'), s') ->
  step s cm s' cm' /\ Forall2 (prop_copy (phi cm')) l l'.
Proof.
  induction l as [|[k p] l IH]; intros cm s l' cm' s' X G O H; simpl in H.
  - injection H as <- <- <-. split; auto. apply step_ext; auto using extends_refl.
  - apply bind_inv in H. destruct H as ([c cm1] & s1 & E1 & H).
    apply bind_inv in H. destruct H as ([l2 cm2] & s2 & E2 & H). injection H as <- <- <-. simpl in *.
    destruct (Hrec _ _ _ _ _ _ X G (O k p (or_introl eq_refl)) E1) as (S1 & P1).
    assert (X1 : extends sb s1) by (eapply extends_trans; [exact X|apply S1]).
    destruct (IH cm1 s1 l2 cm2 s2 X1 (st_good _ _ _ _ S1)) as (S2 & P2); eauto.
    split; [eapply step_trans; eauto|]. constructor; auto.
    repeat split; simpl; auto. eapply phi_mono; eauto. apply S2.
Qed.

Lemma clone_opt_copy o cm s o' cm' s' : extends sb s -> cm_good cm s ->
  (forall a, o = Some a -> old h0 a) -> clone_opt rec cm o s = (Ok (o', cm'), s') ->
  step s cm s' cm' /\ opt_rel (phi cm') o o'.
Proof.
  intros X G O H. destruct o as [a|]; simpl in H.
  - apply bind_inv in H. destruct H as ([c cm1] & s1 & E1 & H). injection H as <- <- <-.
    simpl. eapply Hrec; eauto.
  - injection H as <- <- <-. simpl. split; auto. apply step_ext; auto using extends_refl.
Qed.

Lemma alloc_inv c s a s' : alloc c s = (Ok a, s') ->
  a = List.length (heap s) /\ extends s s' /\ nth_error (heap s') a = Some c
  /\ List.length (heap s') = S (List.length (heap s)).
Proof.
  intros H. pose proof (extends_after _ _ _ _ (extends_alloc c s) H) as X.
  unfold alloc in H. injection H as <- <-. split; auto. split; auto.
  simpl. split; [apply nth_error_snoc|]. rewrite app_length; simpl; lia.
Qed.

Lemma clone_optprops_copy o cm s o' cm' s' : extends sb s -> cm_good cm s ->
  (forall m, o = Some m -> exists l, get_props h0 m = Some l /\ forall k p, In (k, p) l -> old h0 (p_base p)) ->
  clone_optprops rec cm o s = (Ok (o', cm'), s') ->
  step s cm s' cm' /\ opt_rel (props_copy h0 (heap s') (phi cm')) o o'
  /\ forall m, o' = Some m -> n0 <= m.
Proof.
  intros X G O H. destruct o as [m|]; simpl in H.
  - destruct (O m eq_refl) as (l & El & Ol).
    rewrite (bind_ok _ _ _ _ _ (rd_some _ _ _ _ (ext_props _ _ (up _ X) _ _ El))) in H.
    apply bind_inv in H. destruct H as ([l' cm1] & s1 & E1 & H).
    apply bind_inv in H. destruct H as (m' & s2 & E2 & H). injection H as <- <- <-. simpl in *.
    destruct (clone_props_copy l _ _ _ _ _ X G Ol E1) as (S1 & P1).
    destruct (alloc_inv _ _ _ _ E2) as (-> & X2 & N2 & _).
    assert (extends sb s1) by (eapply extends_trans; [exact X|apply S1]).
    split.
    { eapply step_trans; [exact S1|]. apply step_ext; auto. apply S1. }
    split.
    { exists l, l'. repeat split; auto. now apply get_props_nth. }
    intros ? [= <-]. now apply ext_length.
  - injection H as <- <- <-. simpl. split; [|easy]. apply step_ext; auto using extends_refl.
Qed.

Lemma shape_copy_mono h h2 (p p2 : addr -> addr -> Prop) sh sh' :
  (forall a m, get_props h a = Some m -> get_props h2 a = Some m) ->
  (forall a m, get_slice h a = Some m -> get_slice h2 a = Some m) ->
  (forall x y, p x y -> p2 x y) ->
  shape_copy h0 h p sh sh' -> shape_copy h0 h2 p2 sh sh'.
Proof.
  intros G1 G3 P K.
  assert (PC : forall m m', props_copy h0 h p m m' -> props_copy h0 h2 p2 m m').
  { intros m m' (l & l' & E & E' & F). exists l, l'. repeat split; auto.
    eapply Forall2_mono; [|exact F]. intros x y (? & ? & ? & ?). repeat split; auto. }
  assert (SC : forall m m', slice_copy h0 h p m m' -> slice_copy h0 h2 p2 m m').
  { intros m m' (l & l' & E & E' & F). exists l, l'. repeat split; auto.
    eapply Forall2_mono; eauto. }
  destruct sh, sh'; simpl in *; auto.
  - destruct K as (K & ? & ? & ?). repeat split; auto. eapply opt_rel_mono; eauto.
  - destruct K as (? & ? & ? & K & K' & ? & ?). repeat split; auto; eapply opt_rel_mono; eauto.
  - destruct K as (? & K). auto.
Qed.

Definition shape_ge (sh : shape) : Prop :=
  match sh with
  | SObject f => (forall m, o_props f = Some m -> n0 <= m) /\ (forall m, o_pprops f = Some m -> n0 <= m)
  | SUnion sl _ => n0 <= sl
  | _ => True
  end.

Lemma clone_shape_copy a b sh cm s sh' cm' s' : get_base h0 a = Some b -> b_shape b = Some sh ->
  extends sb s -> cm_good cm s -> clone_shape rec cm sh s = (Ok (sh', cm'), s') ->
  step s cm s' cm' /\ shape_copy h0 (heap s') (phi cm') sh sh' /\ shape_ge sh'.
Proof.
  intros Eb Es X G H.
  assert (C : closed_shape h0 sh).
  { destruct (proj1 (W _ _ Eb)) as (_ & _ & _ & _ & sh1 & E' & C). congruence. }
  assert (Def : (Ok (sh, cm), s) = (Ok (sh', cm'), s') -> shape_ge sh ->
     shape_copy h0 (heap s) (phi cm) sh sh ->
     step s cm s' cm' /\ shape_copy h0 (heap s') (phi cm') sh sh' /\ shape_ge sh').
  { intros [= <- <- <-] K K'. split; auto. apply step_ext; auto using extends_refl. }
  destruct sh; simpl in H; try (apply Def; [exact H|exact I|reflexivity]).
  - apply bind_inv in H. destruct H as ([o cm1] & s1 & E1 & H). injection H as <- <- <-. simpl.
    destruct (clone_opt_copy _ _ _ _ _ _ X G (fun x Ex => wf_child _ W _ _ _ _ Eb Es (ch_items _ _ _ Ex)) E1) as (S1 & P1).
    split; [exact S1|]. split; [|exact I]. split; [exact P1|]. repeat split.
  - assert (Gg : forall o, (exists ps, props_of h0 o ps) ->
        (forall ps k p, props_of h0 o ps -> In (k, p) ps -> old h0 (p_base p)) ->
        forall m, o = Some m -> exists l, get_props h0 m = Some l /\ forall k p, In (k, p) l -> old h0 (p_base p)).
    { intros o (ps & Q) R m ->. destruct Q as [[? _]|(m' & Q & Q')]; [discriminate|].
      injection Q as <-. exists ps. split; auto. intros. eapply R; eauto. right; eauto. }
    destruct C as (_ & C1 & C2).
    apply bind_inv in H. destruct H as ([o1 cm1] & s1 & E1 & H).
    apply bind_inv in H. destruct H as ([o2 cm2] & s2 & E2 & H). injection H as <- <- <-. simpl in *.
    destruct (clone_optprops_copy (o_props f) cm s o1 cm1 s1 X G) as (S1 & P1 & L1); [|exact E1|].
    { apply Gg; auto. intros. eapply wf_child; eauto. eapply ch_prop; eauto. }
    assert (X1 : extends sb s1) by (eapply extends_trans; [exact X|apply S1]).
    destruct (clone_optprops_copy (o_pprops f) cm1 s1 o2 cm2 s2 X1 (st_good _ _ _ _ S1)) as (S2 & P2 & L2); [|exact E2|].
    { apply Gg; auto. intros. eapply wf_child; eauto. eapply ch_pprop; eauto. }
    split; [eapply step_trans; eauto|]. split; [|auto].
    repeat split; auto. eapply opt_rel_mono; [|exact P1].
    intros m m' (l & l' & Q & Q' & F). exists l, l'. repeat split; auto.
    + eapply ext_props; eauto. apply S2.
    + eapply Forall2_mono; [|exact F]. intros x y (? & ? & ? & ?). repeat split; auto.
      eapply phi_mono; eauto. apply S2.
  - destruct C as (_ & l & El).
    rewrite (bind_ok _ _ _ _ _ (rd_some _ _ _ _ (ext_slice _ _ (up _ X) _ _ El))) in H.
    apply bind_inv in H. destruct H as ([l' cm1] & s1 & E1 & H).
    apply bind_inv in H. destruct H as (x & s2 & E2 & H). injection H as <- <- <-. simpl in *.
    destruct (clone_list_copy l _ _ _ _ _ X G (fun y Iy => wf_child _ W _ _ _ _ Eb Es (ch_member _ _ _ _ _ El Iy)) E1) as (S1 & P1).
    destruct (alloc_inv _ _ _ _ E2) as (-> & X2 & N2 & _).
    assert (extends sb s1) by (eapply extends_trans; [exact X|apply S1]).
    split.
    { eapply step_trans; [exact S1|]. apply step_ext; auto. apply S1. }
    split.
    { split; auto. exists l, l'. repeat split; auto. now apply get_slice_nth. }
    now apply ext_length.
Qed.
End Rec.

Lemma get_upd_base h c b b' (E : get_base h c = Some b) :
  (forall a m, get_props h a = Some m -> get_props (upd c (CBase b') h) a = Some m)
  /\ (forall a m, get_facets h a = Some m -> get_facets (upd c (CBase b') h) a = Some m)
  /\ (forall a m, get_slice h a = Some m -> get_slice (upd c (CBase b') h) a = Some m)
  /\ (forall a m, get_dt h a = Some m -> get_dt (upd c (CBase b') h) a = Some m).
Proof.
  apply get_base_nth in E.
  repeat split; intros a m; rewrite ?get_props_nth, ?get_facets_nth, ?get_slice_nth, ?get_dt_nth; intros K;
    (destruct (Nat.eq_dec c a) as [<-|N]; [congruence|now rewrite nth_error_upd_neq]).
Qed.

Lemma clone_copy n : forall cm a s c cm' s', extends sb s -> cm_good cm s -> old h0 a ->
  clone n cm a s = (Ok (c, cm'), s') -> step s cm s' cm' /\ phi cm' a c.
Proof.
  induction n as [|n IH]; intros cm a s c cm' s' X G (b & Eb) H; [discriminate|].
  pose proof (extends_after _ _ _ _ (clone_ext (S n) cm a s) H) as XX.
  simpl in H.
  destruct (proj1 (W _ _ Eb)) as ((fm & Ef) & (fd & Ed) & (inh & Ei) & Lk & sh & Es & C).
  pose proof (ext_base _ _ (up _ X) _ _ Eb) as Eb'.
  rewrite (bind_ok _ _ _ _ _ (rd_some _ _ _ _ Eb')) in H.
  destruct (cm_get (b_id b) cm) as [a'|] eqn:Gt.
  { injection H as <- <- <-. split; [apply step_ext; auto using extends_refl|]. exists b; auto. }
  apply bind_inv in H. destruct H as (c0 & s1 & E1 & H).
  destruct (alloc_inv _ _ _ _ E1) as (Ec & X1 & N1 & L1).
  cbv zeta in H. set (cm1 := (b_id b, c0) :: cm) in *.
  assert (X1' : extends sb s1) by (eapply extends_trans; eauto).
  assert (G1 : cm_good cm1 s1).
  { destruct G as (Ga & Gb). split.
    - intros k y. unfold cm1; simpl. destruct (Z.eqb k (b_id b)).
      + intros [= <-]. pose proof (ext_length _ _ X). lia.
      + intros K. specialize (Ga _ _ K). lia.
    - intros k k' y. unfold cm1; simpl.
      destruct (Z.eqb_spec k (b_id b)) as [Ek|Nk], (Z.eqb_spec k' (b_id b)) as [Ek'|Nk']; intros K K'.
      + congruence.
      + injection K as <-. specialize (Ga _ _ K'). lia.
      + injection K' as <-. specialize (Ga _ _ K). lia.
      + eauto. }
  rewrite (bind_ok _ _ _ _ _ (rd_some _ _ _ _ (ext_facets _ _ (up _ X1') _ _ Ef))) in H.
  rewrite (bind_ok _ _ _ _ _ (rd_some _ _ _ _ (ext_props _ _ (up _ X1') _ _ Ed))) in H.
  apply bind_inv in H. destruct H as ([fd' cm2] & s2 & E2 & H). simpl in H.
  destruct (clone_props_copy (clone n) IH fd cm1 s1 fd' cm2 s2 X1' G1) as (S2 & P2); [|exact E2|].
  { intros; eapply wf_fdefs; eauto. }
  assert (X2 : extends sb s2) by (eapply extends_trans; [exact X1'|apply S2]).
  apply bind_inv in H. destruct H as ([al cm3] & s3 & E3 & H). simpl in H.
  destruct (clone_opt_copy (clone n) IH (b_alias b) cm2 s2 al cm3 s3 X2 (st_good _ _ _ _ S2)) as (S3 & P3); [|exact E3|].
  { intros; eapply wf_alias; eauto. }
  assert (X3 : extends sb s3) by (eapply extends_trans; [exact X2|apply S3]).
  rewrite (bind_ok _ _ _ _ _ (rd_some _ _ _ _ (ext_slice _ _ (up _ X3) _ _ Ei))) in H.
  apply bind_inv in H. destruct H as ([inh' cm4] & s4 & E4 & H). simpl in H.
  destruct (clone_list_copy (clone n) IH inh cm3 s3 inh' cm4 s4 X3 (st_good _ _ _ _ S3)) as (S4 & P4); [|exact E4|].
  { intros; eapply wf_inherits; eauto. }
  assert (X4 : extends sb s4) by (eapply extends_trans; [exact X3|apply S4]).
  apply bind_inv in H. destruct H as ([l' cm5] & s5 & E5 & H). simpl in H.
  assert (L5 : step s4 cm4 s5 cm5 /\ opt_rel (link_copy h0 (heap s5) (phi cm5)) (b_link b) l'
              /\ forall d, l' = Some d -> n0 <= d).
  { destruct (b_link b) as [d|] eqn:El.
    - destruct (Lk d eq_refl) as (x & Ex).
      rewrite (bind_ok _ _ _ _ _ (rd_some _ _ _ _ (ext_dt _ _ (up _ X4) _ _ Ex))) in E5.
      apply bind_inv in E5. destruct E5 as ([y cm6] & s6 & E6 & E5). simpl in E5.
      apply bind_inv in E5. destruct E5 as (q & s7 & E7 & E5). injection E5 as <- <- <-.
      destruct (IH _ _ _ _ _ _ X4 (st_good _ _ _ _ S4) (wf_link _ W _ _ _ _ Eb El Ex) E6) as (S6 & P6).
      destruct (alloc_inv _ _ _ _ E7) as (-> & X7 & N7 & _). split.
      + eapply step_trans; [exact S6|]. apply step_ext; auto. apply S6.
      + split.
        * exists x, y. repeat split; auto. now apply get_dt_nth.
        * intros ? [= <-]. apply ext_length. eapply extends_trans; [exact X4|apply S6].
    - injection E5 as <- <- <-. split; [|now split].
      apply step_ext; auto using extends_refl. apply S4. }
  destruct L5 as (S5 & P5 & Q5).
  assert (X5 : extends sb s5) by (eapply extends_trans; [exact X4|apply S5]).
  rewrite Es in H.
  apply bind_inv in H. destruct H as ([sh' cm6] & s6 & E6 & H). simpl in H.
  destruct (clone_shape_copy (clone n) IH a b sh _ _ _ _ _ Eb Es X5 (st_good _ _ _ _ S5) E6) as (S6 & P6 & Q6).
  assert (X6 : extends sb s6) by (eapply extends_trans; [exact X5|apply S6]).
  apply bind_inv in H. destruct H as (q1 & s7 & E7 & H). destruct (alloc_inv _ _ _ _ E7) as (Eq1 & X7 & N7 & _).
  apply bind_inv in H. destruct H as (q2 & s8 & E8 & H). destruct (alloc_inv _ _ _ _ E8) as (Eq2 & X8 & N8 & _).
  apply bind_inv in H. destruct H as (q3 & s9 & E9 & H). destruct (alloc_inv _ _ _ _ E9) as (Eq3 & X9 & N9 & _).
  unfold bind at 1 in H. simpl in H. injection H as <- <- <-.
  assert (X89 : extends s7 s9) by (eapply extends_trans; eauto).
  assert (X69 : extends s6 s9) by (eapply extends_trans; eauto).
  assert (S16 : step s1 cm1 s6 cm6) by (do 4 (eapply step_trans; [eassumption|]); assumption).
  assert (S19 : step s1 cm1 s9 cm6).
  { eapply step_trans; [exact S16|]. apply step_ext; auto. apply S16. }
  set (b' := Base (b_id b) (b_name b) (b_loc b) (b_type b) (b_disp b)
                (b_desc b) (b_example b) (b_examples b) (b_default b) (b_required b)
                (b_domain b) q3 al l' q1 q2 (b_unwrapped b)
                (b_visited b) (Some sh')) in *.
  assert (Nc : nth_error (heap s9) c0 = Some (CBase b)).
  { eapply extends_nth; [apply S19|exact N1]. }
  assert (Ncb : get_base (heap s9) c0 = Some b) by now apply get_base_nth.
  destruct (get_upd_base _ c0 _ b' Ncb) as (U1 & U2 & U3 & U4).
  assert (Sub : cm_sub cm cm6).
  { intros k y E. apply (st_sub _ _ _ _ S16). unfold cm1. simpl.
    destruct (Z.eqb_spec k (b_id b)); congruence. }
  assert (Own : cm_get (b_id b) cm6 = Some c0).
  { apply (st_sub _ _ _ _ S16). unfold cm1; simpl. now rewrite Z.eqb_refl. }
  assert (P : step s cm (St (upd c0 (CBase b') (heap s9)) (st_shapes s9) (st_nextid s9)) cm6).
  { split; auto.
    - intros k y E. destruct (st_new _ _ _ _ S19 _ _ E) as [E'|(x & bx & Ex & Ek & L & D)].
      + unfold cm1 in E'; simpl in E'. destruct (Z.eqb_spec k (b_id b)) as [->|N]; [|now left].
        injection E' as <-. right. exists a, b. split; auto. split; auto. split; [lia|].
        exists b, b'. split; auto. split; [apply get_base_nth; eapply nth_error_upd_eq; eauto|]. split.
        * assert (M6 : cm_sub cm2 cm6).
          { intros kk yy Q. apply (st_sub _ _ _ _ S6), (st_sub _ _ _ _ S5), (st_sub _ _ _ _ S4), (st_sub _ _ _ _ S3). exact Q. }
          assert (M63 : cm_sub cm3 cm6).
          { intros kk yy Q. apply (st_sub _ _ _ _ S6), (st_sub _ _ _ _ S5), (st_sub _ _ _ _ S4). exact Q. }
          assert (M64 : cm_sub cm4 cm6).
          { intros kk yy Q. apply (st_sub _ _ _ _ S6), (st_sub _ _ _ _ S5). exact Q. }
          unfold base_copy. simpl. repeat (split; [reflexivity|]). split.
          { exists fm. split; auto. apply U2, get_facets_nth. exact (extends_nth _ _ _ _ X89 N7). }
          split.
          { exists fd, fd'. split; auto. split.
            - apply U1, get_props_nth. exact (extends_nth _ _ _ _ X9 N8).
            - eapply Forall2_mono; [|exact P2]. intros p q (? & ? & ? & ?). repeat split; auto.
              eapply phi_mono; [exact M6|assumption]. }
          split.
          { exists inh, inh'. split; auto. split.
            - apply U3, get_slice_nth. exact N9.
            - eapply Forall2_mono; [|exact P4]. intros p q. now apply phi_mono. }
          split. { eapply opt_rel_mono; [|exact P3]. intros p q. now apply phi_mono. }
          split.
          { eapply opt_rel_mono; [|exact P5]. intros p q (u & u' & Q1 & Q2 & Q3).
            exists u, u'. split; auto. split; [|eapply phi_mono; [apply (st_sub _ _ _ _ S6)|exact Q3]].
            apply U4. eapply ext_dt; [|exact Q2]. eapply extends_trans; [apply S6|exact X69]. }
          rewrite Es. simpl. eapply shape_copy_mono; [..|exact P6]; auto.
          { intros p q Q. apply U1. exact (ext_props _ _ X69 _ _ Q). }
          { intros p q Q. apply U3. exact (ext_slice _ _ X69 _ _ Q). }
        * split; [|simpl; auto]. pose proof (ext_length _ _ X6). pose proof (ext_length _ _ X7). pose proof (ext_length _ _ X8).
          intros z Oz. destruct Oz as [| | |f m Q1 Q2|f m Q1 Q2|sl e Q1]; simpl in *; try lia.
          -- injection Q1 as ->. simpl in Q6. exact (proj1 Q6 _ Q2).
          -- injection Q1 as ->. simpl in Q6. exact (proj2 Q6 _ Q2).
          -- injection Q1 as ->. exact Q6.
      + right. exists x, bx. split; auto. split; auto. split; [lia|].
        destruct D as (bb & bb' & D1 & D2 & D3 & D4). exists bb, bb'. split; auto. split.
        { simpl. apply get_base_nth. rewrite nth_error_upd_neq by lia. now apply get_base_nth. }
        split; auto. eapply base_copy_mono; [..|exact D3]; auto.
    - destruct (st_good _ _ _ _ S19) as (Ga & Gb). split; auto.
      intros k y E. simpl. rewrite upd_length. eauto. }
  split; auto. exists b. auto.
Qed.
End CopyOf.

(** * Consequences *)

(** The original heap is part of the new one, so originals behave the same. *)
Lemma union_validate_ext rec rec' l v :
  (forall a, In a l -> rec a v = rec' a v) -> union_validate rec l v = union_validate rec' l v.
Proof.
  induction l as [|a l IH]; intros H; simpl; auto. rewrite (H a (or_introl eq_refl)).
  destruct (rec' a v); auto. apply IH. intros; apply H; simpl; auto.
Qed.

Section Sim.
Variables (O : oracle) (h h' : list cell) (ph : addr -> addr -> Prop).

Lemma items_loop_rel rec rec' i i' u l : forall acc,
  opt_rel (fun a a' => forall v, rec a v = rec' a' v) i i' ->
  items_loop O rec i u l acc = items_loop O rec' i' u l acc.
Proof.
  induction l as [|x l IH]; intros acc R; simpl; auto.
  assert (E : match i with Some i => rec i x | None => Ok tt end = match i' with Some i => rec' i x | None => Ok tt end).
  { destruct i, i'; simpl in R; try contradiction; auto. }
  rewrite E. destruct (match i' with Some i => rec' i x | None => Ok tt end); simpl; auto.
  destruct u; auto. destruct (item_hash O x); auto.
Qed.

Definition prel (rec rec' : addr -> gval -> res unit) (x y : string * prop) : Prop :=
  fst x = fst y /\ p_name (snd x) = p_name (snd y) /\ p_req (snd x) = p_req (snd y)
  /\ forall v, rec (p_base (snd x)) v = rec' (p_base (snd y)) v.

Lemma pattern_loop_rel rec rec' k x l l' : Forall2 (prel rec rec') l l' -> forall f,
  pattern_loop O rec k x l f = pattern_loop O rec' k x l' f.
Proof.
  induction 1 as [|[k1 p1] [k2 p2] l l' (E1 & E2 & E3 & E4) _ IH]; intros f; simpl in *; auto.
  rewrite E2, E4. destruct (o_match O (p_name p2) k); auto. destruct (rec' (p_base p2) x); auto.
Qed.

Lemma oget_rel rec rec' k l l' : Forall2 (prel rec rec') l l' ->
  opt_rel (fun p q => forall v, rec (p_base p) v = rec' (p_base q) v) (oget k l) (oget k l').
Proof.
  induction 1 as [|[k1 p1] [k2 p2] l l' (E1 & E2 & E3 & E4) _ IH]; simpl in *; auto.
  subst k2. destruct (String.eqb k k1); simpl; auto.
Qed.

Lemma missing_rel rec rec' l l' kvs : Forall2 (prel rec rec') l l' ->
  missing_required l kvs = missing_required l' kvs.
Proof.
  unfold missing_required.
  induction 1 as [|[k1 p1] [k2 p2] l l' (E1 & E2 & E3 & E4) _ IH]; simpl in *; auto.
  now rewrite E1, E3, IH.
Qed.

Lemma props_loop_rel rec rec' ps ps' pps pps' r kvs :
  Forall2 (prel rec rec') ps ps' -> Forall2 (prel rec rec') pps pps' ->
  props_loop O rec ps pps r kvs = props_loop O rec' ps' pps' r kvs.
Proof.
  intros P Q. induction kvs as [|[k x] kvs IH]; simpl; auto.
  pose proof (oget_rel _ _ k _ _ P) as G.
  assert (E : match oget k ps with
              | Some p => rec (p_base p) x
              | None => if r then Err else pattern_loop O rec k x pps false
              end = match oget k ps' with
              | Some p => rec' (p_base p) x
              | None => if r then Err else pattern_loop O rec' k x pps' false
              end).
  { destruct (oget k ps), (oget k ps'); simpl in G; try contradiction; auto.
    destruct r; auto. now apply pattern_loop_rel. }
  rewrite E. now rewrite IH.
Qed.

Lemma union_validate_rel rec rec' l l' v :
  Forall2 (fun a a' => forall v, rec a v = rec' a' v) l l' ->
  union_validate rec l v = union_validate rec' l' v.
Proof. induction 1 as [|a a' l l' E _ IH]; simpl; auto. rewrite E. destruct (rec' a' v); auto. Qed.

(** Recursive shapes: corresponding heads, or heads known to behave alike. *)
Definition sim_shape (sh sh' : shape) : Prop :=
  match sh, sh' with
  | SRec hd, SRec hd' => ph hd hd' \/ forall n v, validate n O h hd v = validate n O h' hd' v
  | _, _ => shape_copy h h' ph sh sh'
  end.
Hypothesis Hcopy : forall x y, ph x y -> exists b b', get_base h x = Some b /\ get_base h' y = Some b'
   /\ opt_rel sim_shape (b_shape b) (b_shape b').

Lemma props_rel rec rec' (R : forall x y, ph x y -> forall v, rec x v = rec' y v) l l' :
  Forall2 (prop_copy ph) l l' -> Forall2 (prel rec rec') l l'.
Proof.
  apply Forall2_mono. intros x y (? & ? & ? & ?). repeat split; auto.
Qed.

Lemma opt_props_rel o o' : opt_rel (props_copy h h' ph) o o' ->
  exists l l', opt_props h o = Some l /\ opt_props h' o' = Some l' /\ Forall2 (prop_copy ph) l l'.
Proof.
  destruct o as [m|], o' as [m'|]; simpl; try contradiction.
  - intros (l & l' & E & E' & F). exists l, l'. auto.
  - intros _. exists [], []. auto.
Qed.

Lemma validate_copy n : forall x y, ph x y -> forall v, validate n O h x v = validate n O h' y v.
Proof.
  induction n as [|n IH]; intros x y P v; auto. cbn [validate].
  destruct (Hcopy _ _ P) as (b & b' & E & E' & S). rewrite E, E'.
  destruct (b_shape b) as [sh|] eqn:Sh, (b_shape b') as [sh'|] eqn:Sh'; simpl in S; try contradiction; auto.
  destruct sh, sh'; simpl in S; try discriminate S; try contradiction; try (injection S as <-); auto.
  - destruct S as (S & E1 & E2 & E3). unfold array_validate. rewrite E1, E2, E3.
    destruct v; auto.
    erewrite items_loop_rel; [reflexivity|]. eapply opt_rel_mono; [|exact S]. auto.
  - destruct S as (E1 & E2 & E3 & S1 & S2 & E4 & E5).
    destruct (opt_props_rel _ _ S1) as (l & l' & Q1 & Q2 & Q3).
    destruct (opt_props_rel _ _ S2) as (m & m' & R1 & R2 & R3).
    rewrite Q1, Q2, R1, R2. unfold object_validate. rewrite E3, E4, E5. destruct v; auto.
    rewrite (missing_rel _ _ _ _ l0 (props_rel _ _ IH _ _ Q3)).
    rewrite (props_loop_rel _ _ _ _ _ _ _ l0 (props_rel _ _ IH _ _ Q3) (props_rel _ _ IH _ _ R3)). reflexivity.
  - destruct S as (_ & l & l' & Q1 & Q2 & Q3). rewrite Q1, Q2. apply union_validate_rel.
    eapply Forall2_mono; [|exact Q3]. auto.
  - destruct S as [S|S]; auto.
Qed.
End Sim.

(** In an extension of a well-formed heap the old types behave as before. *)
Lemma validate_extends s s' n O a v : wf_heap (heap s) -> extends s s' -> old (heap s) a ->
  validate n O (heap s) a v = validate n O (heap s') a v.
Proof.
  intros W X Oa.
  apply (validate_copy O (heap s) (heap s') (fun x y => x = y /\ old (heap s) x)); auto.
  - intros x y (<- & b & E). exists b, b. split; auto. split; [eapply ext_base; eauto|].
    destruct (b_shape b) as [sh|] eqn:S; simpl; auto.
    destruct (proj1 (W _ _ E)) as (_ & _ & _ & _ & sh' & S' & C).
    assert (sh' = sh) by congruence. subst sh'.
    assert (Ch : forall c, child (heap s) sh c -> old (heap s) c).
    { intros c Hc. eapply wf_child; eauto. }
    destruct sh; try reflexivity.
    + simpl. repeat split; auto. destruct (a_items f) eqn:I; simpl; auto. split; auto.
      apply Ch. now constructor.
    + destruct C as (_ & C1 & C2).
      assert (G : forall o, (exists ps, props_of (heap s) o ps) ->
         (forall ps k p, props_of (heap s) o ps -> In (k, p) ps -> old (heap s) (p_base p)) ->
         opt_rel (props_copy (heap s) (heap s') (fun x y => x = y /\ old (heap s) x)) o o).
      { intros o (ps & P) R. destruct o as [m|]; simpl; auto.
        destruct P as [[? _]|(m' & Q & Q')]; [discriminate|]. injection Q as <-.
        exists ps, ps. split; auto. split; [eapply ext_props; eauto|].
        assert (K : forall k p, In (k, p) ps -> old (heap s) (p_base p)).
        { intros. eapply R; eauto. right; eauto. }
        clear -K. induction ps as [|[k p] ps IH]; constructor; eauto using in_cons.
        - repeat split; auto. eapply K. now left. }
      simpl. repeat split; auto; apply G; auto; intros; eapply Ch;
        [eapply ch_prop|eapply ch_pprop]; eauto.
    + destruct C as (_ & l & El). simpl. split; auto. exists l, l. split; auto.
      split; [eapply ext_slice; eauto|].
      assert (K : forall k, In k l -> old (heap s) k).
      { intros. eapply Ch. eapply ch_member; eauto. }
      clear -K. induction l as [|k l IH]; constructor; auto.
      * split; auto. apply K. now left.
      * apply IH. intros. apply K. now right.
    + left. split; auto. apply Ch. constructor.
Qed.

(** * The theorems *)

(** The originals may be a part [h0] of the heap only. *)
Theorem clone_isomorphic_in n a c h0 s s' : wf_heap h0 -> ids_unique h0 -> (exists x, heap s = h0 ++ x) ->
  old h0 a -> clone_detached n a s = (Ok c, s') ->
  exists ph : addr -> addr -> Prop, ph a c
    /\ (forall x y y', ph x y -> ph x y' -> y = y') /\ (forall x x' y, ph x y -> ph x' y -> x = x')
    /\ forall x y, ph x y -> List.length (heap s) <= y
         /\ exists b b', get_base h0 x = Some b /\ get_base (heap s') y = Some b'
              /\ base_copy h0 (heap s') ph b b'
              /\ (forall z, owns b' z -> List.length (heap s) <= z)
              /\ (forall z, b_link b' = Some z -> List.length (heap s) <= z).
Proof.
  intros W U Ex Oa H. unfold clone_detached in H. apply bind_inv in H.
  destruct H as ([c' cm] & s1 & H & K). injection K as <- <-. simpl.
  set (s0 := St h0 (st_shapes s) (st_nextid s)).
  assert (X0 : extends s0 s) by (split; [exact Ex|split; reflexivity]).
  assert (G0 : cm_good s [] s) by (split; simpl; congruence).
  destruct (clone_copy s0 s W X0 n [] a s c' cm s1 (extends_refl s) G0 Oa H) as (S & P).
  exists (phi s0 cm). split; auto. split; [|split].
  - intros x y y' (b & E & F) (b' & E' & F'). congruence.
  - intros x x' y (b & E & F) (b' & E' & F').
    eapply U; eauto. eapply (proj2 (st_good _ _ _ _ _ _ S)); eauto.
  - intros x y (b & E & F).
    destruct (st_new _ _ _ _ _ _ S _ _ F) as [?|(x' & b' & E' & Ei & L & D)]; [discriminate|].
    split; auto. assert (x' = x) by (eapply U; eauto). subst x'.
    destruct D as (b1 & b2 & D1 & D2 & D3 & D4). exists b1, b2. repeat (split; [assumption|]). apply D4.
Qed.

Theorem clone_isomorphic n a c s s' : wf_heap (heap s) -> ids_unique (heap s) ->
  old (heap s) a -> clone_detached n a s = (Ok c, s') ->
  exists ph : addr -> addr -> Prop, ph a c
    /\ (forall x y y', ph x y -> ph x y' -> y = y') /\ (forall x x' y, ph x y -> ph x' y -> x = x')
    /\ forall x y, ph x y -> List.length (heap s) <= y
         /\ exists b b', get_base (heap s) x = Some b /\ get_base (heap s') y = Some b'
              /\ base_copy (heap s) (heap s') ph b b'
              /\ (forall z, owns b' z -> List.length (heap s) <= z)
              /\ (forall z, b_link b' = Some z -> List.length (heap s) <= z).
Proof.
  intros W U. apply clone_isomorphic_in; auto. exists []. symmetry. apply app_nil_r.
Qed.

Theorem clone_same_values n a c s s' m O v : wf_heap (heap s) -> ids_unique (heap s) ->
  old (heap s) a -> clone_detached n a s = (Ok c, s') ->
  validate m O (heap s') c v = validate m O (heap s) a v.
Proof.
  intros W U Oa H. pose proof (extends_after _ _ _ _ (clone_detached_ext n a s) H) as X.
  destruct (clone_isomorphic _ _ _ _ _ W U Oa H) as (ph & P & _ & _ & Q).
  symmetry. apply (validate_copy O (heap s) (heap s') ph); auto.
  intros x y R. destruct (Q _ _ R) as (_ & b & b' & E & E' & C & _). exists b, b'.
  split; auto. split; auto. destruct C as (_ & _ & _ & _ & _ & _ & _ & _ & _ & _ & _ & _ & _ & _ & _ & _ & _ & _ & C).
  destruct (b_shape b) as [sh|] eqn:S, (b_shape b') as [sh'|]; simpl in *; auto.
  destruct sh, sh'; simpl in *; auto; try discriminate C. injection C as <-. right. intros k w.
  apply validate_extends; auto. eapply wf_child; eauto. constructor.
Qed.

Theorem clone_disjoint_in n a c h0 s s' z : wf_heap h0 -> ids_unique h0 -> no_rec h0 -> (exists x, heap s = h0 ++ x) ->
  old h0 a -> clone_detached n a s = (Ok c, s') ->
  reaches (heap s') c z -> List.length (heap s) <= z.
Proof.
  intros W U NR Ex Oa H R.
  destruct (clone_isomorphic_in _ _ _ _ _ _ W U Ex Oa H) as (ph & P & _ & _ & Q).
  assert (I : (exists x, ph x z) \/ (List.length (heap s) <= z /\ get_base (heap s') z = None)).
  { induction R as [|y z R IH Pt]; [eauto|].
    destruct IH as [(x & Px)|(_ & N)]; [|destruct Pt; congruence].
    destruct (Q _ _ Px) as (L & b & b' & E & E' & C & O1 & O2).
    destruct C as (_ & _ & _ & _ & _ & _ & _ & _ & _ & _ & _ & _ & _ & CF & CD & CI & CA & CL & CS).
    assert (InP : forall l l' k p, Forall2 (prop_copy ph) l l' -> In (k, p) l' -> exists x, ph x (p_base p)).
    { intros l l' k p F I. induction F as [|u w l l' K F IHF]; [easy|]. destruct I as [->|I]; auto.
      destruct K as (_ & _ & _ & K). eauto. }
    assert (InS : forall l l' k, Forall2 ph l l' -> In k l' -> exists x, ph x k).
    { intros l l' k F I. induction F as [|u w l l' K F IHF]; [easy|]. destruct I as [->|I]; eauto. }
    assert (NB : forall w, owns b' w -> get_base (heap s') w = None).
    { intros w Ow. destruct Ow as [| | |f m E1 E2|f m E1 E2|sl e E1].
      - destruct CF as (m & _ & F). unfold get_base. unfold get_facets in F.
        destruct (nth_error (heap s') (b_facets b')) as [[]|]; congruence.
      - destruct CD as (? & m & _ & F & _). unfold get_base. unfold get_props in F.
        destruct (nth_error (heap s') (b_fdefs b')) as [[]|]; congruence.
      - destruct CI as (? & m & _ & F & _). unfold get_base. unfold get_slice in F.
        destruct (nth_error (heap s') (b_inherits b')) as [[]|]; congruence.
      - rewrite E1 in CS. destruct (b_shape b) as [[]|]; simpl in CS; try contradiction; try discriminate CS.
        destruct CS as (_ & _ & _ & C1 & _ & _). rewrite E2 in C1.
        destruct (o_props f0); simpl in C1; [|contradiction]. destruct C1 as (? & ? & _ & F & _).
        unfold get_base. unfold get_props in F. destruct (nth_error (heap s') m) as [[]|]; congruence.
      - rewrite E1 in CS. destruct (b_shape b) as [[]|]; simpl in CS; try contradiction; try discriminate CS.
        destruct CS as (_ & _ & _ & _ & C1 & _). rewrite E2 in C1.
        destruct (o_pprops f0); simpl in C1; [|contradiction]. destruct C1 as (? & ? & _ & F & _).
        unfold get_base. unfold get_props in F. destruct (nth_error (heap s') m) as [[]|]; congruence.
      - rewrite E1 in CS. destruct (b_shape b) as [[]|]; simpl in CS; try contradiction; try discriminate CS.
        destruct CS as (_ & ? & ? & _ & F & _). unfold get_base. unfold get_slice in F.
        destruct (nth_error (heap s') sl) as [[]|]; congruence. }
    destruct Pt as [b2 z E2 Rf|b2 z E2 Ow|b2 z E2 Lk]; replace b2 with b' in * by congruence; clear b2 E2.
    - left. destruct Rf as [m k p F I|w Ew|l w F I|d w F I|sh w Es Ch].
      + destruct CD as (l & l' & _ & F' & K). replace m with l' in * by congruence. eauto.
      + rewrite Ew in CA. destruct (b_alias b); simpl in CA; [eauto|contradiction].
      + destruct CI as (k & k' & _ & F' & K). replace l with k' in * by congruence. eauto.
      + rewrite F in CL. destruct (b_link b); simpl in CL; [|contradiction].
        destruct CL as (u & u' & _ & F' & K). exists u. congruence.
      + rewrite Es in CS. destruct (b_shape b) as [sh0|] eqn:Sh; simpl in CS; [|contradiction].
        destruct sh, sh0; simpl in CS; try contradiction; try discriminate CS; try (now inversion Ch).
        * inversion Ch as [f1 i Ei| | | |]; subst. destruct CS as (C1 & _). rewrite Ei in C1.
          destruct (a_items f0); simpl in C1; [eauto|contradiction].
        * destruct CS as (_ & _ & _ & C1 & C2 & _ & _).
          inversion Ch as [|f1 ps k p Po I|f1 ps k p Po I| |]; subst.
          -- destruct Po as [[_ ->]|(m & Em & Gm)]; [easy|]. rewrite Em in C1.
             destruct (o_props f0); simpl in C1; [|contradiction].
             destruct C1 as (l & l' & _ & F' & K). replace ps with l' in * by congruence. eauto.
          -- destruct Po as [[_ ->]|(m & Em & Gm)]; [easy|]. rewrite Em in C2.
             destruct (o_pprops f0); simpl in C2; [|contradiction].
             destruct C2 as (l & l' & _ & F' & K). replace ps with l' in * by congruence. eauto.
        * inversion Ch as [| | |sl e' l m Gl I|]; subst.
          destruct CS as (_ & k & k' & _ & F' & K). replace l with k' in * by congruence. eauto.
        * exfalso. apply (NR x head0). exists b; auto.
    - right. split; auto.
    - right. split; auto.
      destruct (b_link b) as [d|]; rewrite Lk in CL; simpl in CL; [|contradiction].
      destruct CL as (u & u' & _ & F' & K). unfold get_base. unfold get_dt in F'.
      destruct (nth_error (heap s') z) as [[]|]; congruence. }
  destruct I as [(x & Px)|(L & _)]; auto. apply (Q _ _ Px).
Qed.

Theorem clone_disjoint n a c s s' z : wf_heap (heap s) -> ids_unique (heap s) -> no_rec (heap s) ->
  old (heap s) a -> clone_detached n a s = (Ok c, s') ->
  reaches (heap s') c z -> List.length (heap s) <= z.
Proof.
  intros W U NR. eapply clone_disjoint_in; eauto. exists []. symmetry. apply app_nil_r.
Qed.
