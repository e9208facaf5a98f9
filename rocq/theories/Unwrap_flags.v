(** Which ShapeVisited flags unwrapping leaves behind in models without unions,
    and that it keeps ordered maps ordered maps (C70). *)
From Coq Require Import ZArith List String Bool Lia.
From Verif Require Import Base Scalars Heap Spec_Validate Spec_Mark Heap_lemmas Pipeline.
From Verif Require Yaml_proofs.
Import ListNotations.
Open Scope string_scope.
Open Scope list_scope.
Open Scope nat_scope.

Section Flags.
(** [na]: there is no type of kind any. *)
Variable na : Prop.

Definition legal (sh : shape) : Prop :=
  (forall sl e, sh <> SUnion sl e) /\ (forall hd, sh <> SRec hd) /\ (na -> sh <> SAny).
Definition base_in (F : addr -> Prop) (x : addr) (b : base) : Prop :=
  (forall sh, b_shape b = Some sh -> legal sh) /\ (b_visited b = true -> F x \/ b_shape b = Some SAny).
Record inv (F : addr -> Prop) (h : list cell) : Prop := {
  i_base : forall x b, get_base h x = Some b -> base_in F x b;
  i_keyed : maps_keyed h
}.

(** Every successful run keeps the invariant. *)
Definition keeps {A} (F : addr -> Prop) (m : M A) : Prop := forall s a s', inv F (heap s) -> m s = (Ok a, s') -> inv F (heap s').

Lemma k_ret {A} F (a : A) : keeps F (ret a).
Proof. intros s x s' I H. injection H as _ <-. exact I. Qed.
Lemma k_fail {A} F : keeps F (@fail A). Proof. intros s x s' I H. discriminate. Qed.
Lemma k_panic {A} F : keeps F (@mpanic A). Proof. intros s x s' I H. discriminate. Qed.
Lemma k_diverge {A} F : keeps F (@diverge A). Proof. intros s x s' I H. discriminate. Qed.
Lemma k_lift {A} F (r : res A) : keeps F (lift r).
Proof. intros s x s' I H. injection H as _ <-. exact I. Qed.
Lemma k_bind {A B} F (m : M A) (f : A -> M B) : keeps F m -> (forall a, keeps F (f a)) -> keeps F (bind m f).
Proof. intros Km Kf s x s' I H. apply bind_inv in H. destruct H as (a & s1 & H1 & H). exact (Kf a _ _ _ (Km _ _ _ I H1) H). Qed.
Lemma k_rd {A B} F (get : list cell -> addr -> option A) a (f : A -> M B) :
  (forall s x, inv F (heap s) -> get (heap s) a = Some x -> forall y s', f x s = (Ok y, s') -> inv F (heap s')) -> keeps F (bind (rd get a) f).
Proof.
  intros Kf s y s' I H. apply bind_inv in H. destruct H as (x & s1 & H1 & H). unfold rd in H1. destruct (get (heap s) a) eqn:G; [|discriminate].
  injection H1 as <- <-. exact (Kf s a0 I G y s' H).
Qed.
Lemma k_rd' {A B} F (get : list cell -> addr -> option A) a (f : A -> M B) : (forall x, keeps F (f x)) -> keeps F (bind (rd get a) f).
Proof. intros Kf. apply k_rd. intros s x I _ y s' H. exact (Kf x _ _ _ I H). Qed.

Lemma inv_upd F h a c c' : inv F h -> nth_error h a = Some c -> (forall b, c' = CBase b -> base_in F a b) -> (forall l, c' = CProps l -> NoDup (map fst l)) ->
  inv F (upd a c' h).
Proof.
  intros [I1 I2] N B P. assert (At : nth_error (upd a c' h) a = Some c') by exact (nth_error_upd_eq _ _ _ _ N). split.
  - intros x b G. apply get_base_nth in G. destruct (Nat.eq_dec a x) as [<-|Ne]; [rewrite At in G; injection G as ->; now apply B|].
    rewrite nth_error_upd_neq in G by auto. apply I1. now apply get_base_nth.
  - intros x l G. apply get_props_nth in G. destruct (Nat.eq_dec a x) as [<-|Ne]; [rewrite At in G; injection G as ->; now apply P|].
    rewrite nth_error_upd_neq in G by auto. apply (I2 x). now apply get_props_nth.
Qed.
Lemma k_alloc F c : (forall b, c <> CBase b) -> (forall l, c = CProps l -> NoDup (map fst l)) -> keeps F (alloc c).
Proof.
  intros Nb P s x s' [I1 I2] H. injection H as _ <-. cbn [heap].
  assert (D : forall y c', nth_error (heap s ++ [c]) y = Some c' -> nth_error (heap s) y = Some c' \/ c' = c).
  { intros y c' N. destruct (Nat.lt_ge_cases y (List.length (heap s))) as [L|L]; [rewrite nth_error_app1 in N by exact L; auto|].
    rewrite nth_error_app2 in N by exact L. apply nth_error_In in N. destruct N as [->|[]]. auto. }
  split.
  - intros y b G. apply get_base_nth in G. destruct (D _ _ G) as [G'|E]; [apply I1; now apply get_base_nth|]. now destruct (Nb b).
  - intros y l G. apply get_props_nth in G. destruct (D _ _ G) as [G'|E]; [apply (I2 y); now apply get_props_nth|]. now apply P.
Qed.
Lemma k_put F a : keeps F (put_shape a). Proof. intros s x s' I H. injection H as _ <-. exact I. Qed.

(** Fields other than the flag and the shape. *)
Lemma k_upd F a f : (forall b, b_visited (f b) = b_visited b /\ b_shape (f b) = b_shape b) -> keeps F (upd_base a f).
Proof.
  intros E. unfold upd_base. apply k_rd. intros s b I G y s' H. unfold Heap.write in H. injection H as _ <-. cbn [heap].
  pose proof G as N. apply get_base_nth in N. apply (inv_upd _ _ _ _ _ I N); [|discriminate]. intros b' [= <-]. destruct (i_base _ _ I _ _ G) as [B1 B2].
  destruct (E b) as [E1 E2]. split; [intros sh; rewrite E2; apply B1|rewrite E1, E2; exact B2].
Qed.
Lemma k_props_set F m k p : keeps F (props_set m k p).
Proof.
  unfold props_set. apply k_rd. intros s l I G y s' H. unfold Heap.write in H. injection H as _ <-. cbn [heap].
  pose proof G as N. apply get_props_nth in N. apply (inv_upd _ _ _ _ _ I N); [discriminate|]. intros l' [= <-]. apply Yaml_proofs.oset_keys, (i_keyed _ _ I _ _ G).
Qed.
Lemma k_slice_set F m i x : keeps F (slice_set m i x).
Proof.
  unfold slice_set. apply k_rd. intros s l I G y s' H. destruct (nth_error l i); [|discriminate]. unfold Heap.write in H. injection H as _ <-. cbn [heap].
  apply get_slice_nth in G. apply (inv_upd _ _ _ _ _ I G); discriminate.
Qed.
Lemma k_upd_arr F a f : keeps F (upd_arr a f).
Proof.
  unfold upd_arr. apply k_rd. intros s b I G y s' H. destruct (i_base _ _ I _ _ G) as [B1 B2].
  destruct (b_shape b) as [sh|] eqn:Sh; [|injection H as _ <-; exact I]. destruct sh; try (injection H as _ <-; exact I).
  unfold Heap.write in H. injection H as _ <-. cbn [heap]. apply get_base_nth in G. apply (inv_upd _ _ _ _ _ I G); [|discriminate].
  intros b' [= <-]. split; [intros sh [= <-]; split; [discriminate|split; discriminate]|]. cbn. intros V. destruct (B2 V) as [X|X]; [now left|discriminate].
Qed.
Lemma k_upd_obj F a f : keeps F (upd_obj a f).
Proof.
  unfold upd_obj. apply k_rd. intros s b I G y s' H. destruct (i_base _ _ I _ _ G) as [B1 B2].
  destruct (b_shape b) as [sh|] eqn:Sh; [|injection H as _ <-; exact I]. destruct sh; try (injection H as _ <-; exact I).
  unfold Heap.write in H. injection H as _ <-. cbn [heap]. apply get_base_nth in G. apply (inv_upd _ _ _ _ _ I G); [|discriminate].
  intros b' [= <-]. split; [intros sh [= <-]; split; [discriminate|split; discriminate]|]. cbn. intros V. destruct (B2 V) as [X|X]; [now left|discriminate].
Qed.
Lemma k_loop_props F n m body : (forall k p, keeps F (body k p)) -> forall i, keeps F (loop_props n m i body).
Proof.
  intros B. induction n as [|n IH]; intros i; cbn [loop_props]; [apply k_diverge|]. apply k_rd'. intros l.
  destruct (nth_error l i) as [[k p]|]; [|apply k_ret]. apply k_bind; auto.
Qed.

Section Inh.
Variable n : nat.
Variable rec : addr -> addr -> M addr.
Hypothesis Rec : forall F a c, keeps F (rec a c).

Lemma k_inherit_array F t src tf sf : keeps F (inherit_array rec t src tf sf).
Proof.
  unfold inherit_array. apply k_bind.
  - destruct (a_items tf); [|apply k_upd_arr]. destruct (a_items sf); [|apply k_ret]. apply k_bind; [apply Rec|intros; apply k_ret].
  - intros _. apply k_bind; [apply k_rd'; intros; apply k_ret|intros]. apply k_bind; [apply k_rd'; intros; apply k_ret|intros].
    apply k_bind; [apply k_lift|intros]. apply k_bind; [apply k_lift|intros]. apply k_bind; [apply k_lift|intros]. apply k_upd_arr.
Qed.
Lemma k_inherit_map F tm sm : keeps F (inherit_map n rec tm sm).
Proof.
  unfold inherit_map. apply k_loop_props. intros k p. apply k_rd'. intros tl. destruct (oget k tl) as [tp|]; [|apply k_props_set].
  destruct (p_req p && negb (p_req tp)); [apply k_fail|]. apply k_bind; [apply Rec|intros; apply k_ret].
Qed.
Lemma k_inherit_object F t src tf sf : keeps F (inherit_object n rec t src tf sf).
Proof.
  unfold inherit_object. apply k_bind; [apply k_lift|intros]. apply k_bind; [apply k_lift|intros]. apply k_bind; [apply k_upd_obj|intros].
  apply k_bind; [unfold inherit_props; destruct (o_props tf); [destruct (o_props sf)|]; auto using k_upd_obj, k_ret, k_inherit_map|intros].
  apply k_bind; [apply k_rd'; intros; apply k_ret|intros tf']. apply k_bind; [apply k_rd'; intros; apply k_ret|intros sf'].
  unfold inherit_pprops. destruct (o_pprops tf'); [destruct (o_pprops sf')|]; auto using k_upd_obj, k_ret, k_inherit_map.
Qed.

Lemma scalar_kin t s r : inherit_scalar t s = Some (Ok r) -> legal t -> legal r /\ (t = SAny -> r = SAny).
Proof.
  intros H [L1 [L2 L3]]. destruct t, s; cbn in H; try discriminate H;
    try (injection H as <-; split; [split; [exact L1|split; [exact L2|exact L3]]|auto; discriminate]).
  all: match type of H with
       | Some (rbind ?x _) = _ => destruct x; cbn in H; try discriminate H; injection H as <-
       | Some (if ?c then _ else _) = _ => destruct c; try discriminate H; injection H as <-
       end; (split; [split; [discriminate|split; discriminate]|discriminate]).
Qed.

Lemma k_inherit_shape F s t src tsh ssh y s' : inv F (heap s) -> shape_at (heap s) t tsh -> legal tsh -> legal ssh ->
  inherit_shape n rec t src tsh ssh s = (Ok y, s') -> inv F (heap s').
Proof.
  intros I (tb & G & Sh) Lt Ls H.
  assert (Sc : match inherit_scalar tsh ssh with Some r => bind (lift r) (fun sh => upd_base t (set_shape (Some sh))) | None => fail end s = (Ok y, s') -> inv F (heap s')).
  { destruct (inherit_scalar tsh ssh) as [r|] eqn:Es; [|discriminate]. intros X. apply bind_inv in X. destruct X as (sh & s1 & X1 & X). injection X1 as -> <-.
    destruct (scalar_kin _ _ _ Es Lt) as [Lr Ar]. unfold upd_base in X. apply bind_inv in X. destruct X as (b & s1 & X1 & X). unfold rd in X1. rewrite G in X1.
    injection X1 as <- <-. unfold Heap.write in X. injection X as _ <-. cbn [heap]. apply get_base_nth in G as N. apply (inv_upd _ _ _ _ _ I N); [|discriminate].
    intros b' [= <-]. destruct (i_base _ _ I _ _ G) as [_ B2]. split; [intros sh' [= <-]; exact Lr|]. cbn. intros V. destruct (B2 V) as [Z|Z]; [now left|]. right.
    rewrite Sh in Z. injection Z as ->. now rewrite Ar. }
  destruct tsh as [| | | | | | | | | | |tf|tf|sl e| | |]; try exact (Sc H).
  - destruct ssh; try exact (Sc H). exact (k_inherit_array F _ _ _ _ _ _ _ I H).
  - destruct ssh as [| | | | | | | | | | |sf|sf|sl e| | |hd]; try exact (Sc H).
    + exact (k_inherit_object F _ _ _ _ _ _ _ I H).
    + exfalso. now apply (proj1 (proj2 Ls) hd).
  - exfalso. now apply (proj1 Lt sl e).
Qed.

Lemma k_body F s src : keeps F (inherit_body n rec s src).
Proof.
  unfold inherit_body. apply k_rd. intros s0 sb I0 Gs y s' H. destruct (b_visited sb) eqn:V; [injection H as _ <-; exact I0|].
  destruct (i_base _ _ I0 _ _ Gs) as [Ls _].
  apply bind_inv in H. destruct H as ([] & s1 & H1 & H).
  set (F1 := fun x => F x \/ (x = src /\ b_shape sb <> Some SAny)).
  assert (I1 : inv F1 (heap s1)).
  { unfold upd_base in H1. apply bind_inv in H1. destruct H1 as (b & s2 & X1 & X). unfold rd in X1. rewrite Gs in X1. injection X1 as <- <-.
    unfold Heap.write in X. injection X as <-. cbn [heap]. apply get_base_nth in Gs as N.
    assert (I0' : inv F1 (heap s0)) by (split; [intros x b G; destruct (i_base _ _ I0 _ _ G) as [B1 B2]; split; [exact B1|]; intros Vb; destruct (B2 Vb); [left; left|right]; assumption|exact (i_keyed _ _ I0)]).
    apply (inv_upd _ _ _ _ _ I0' N); [|discriminate]. intros b' [= <-]. split; [exact Ls|]. intros _. cbn.
    destruct (b_shape sb) as [[]|] eqn:Q; try (now right); left; right; split; auto; discriminate. }
  clear H1 I0 Gs. apply bind_inv in H. destruct H as (tb & s2 & H2 & H). unfold rd in H2. destruct (get_base (heap s1) s) as [tb'|] eqn:Gt; [|discriminate]. injection H2 as -> <-.
  destruct (i_base _ _ I1 _ _ Gt) as [Lt _].
  apply bind_inv in H. destruct H as ([] & s2 & H2 & H).
  assert (I2 : inv F1 (heap s2) /\ exists b2, get_base (heap s2) s = Some b2 /\ b_shape b2 = b_shape tb).
  { destruct (b_desc tb); [injection H2 as <-; eauto|]. split; [refine (k_upd F1 _ _ _ _ _ _ I1 H2); intros b; split; reflexivity|].
    unfold upd_base in H2. apply bind_inv in H2. destruct H2 as (b & s3 & X1 & X). unfold rd in X1. rewrite Gt in X1. injection X1 as <- <-.
    unfold Heap.write in X. injection X as <-. cbn [heap]. exists (set_desc (b_desc sb) tb). split; [|reflexivity]. apply get_base_nth in Gt. apply get_base_nth. exact (nth_error_upd_eq _ _ _ _ Gt). }
  clear H2 I1 Gt. destruct I2 as (I2 & b2 & G2 & E2).
  apply bind_inv in H. destruct H as (tfm & s3 & H3 & H). unfold rd in H3. destruct (get_facets (heap s2) (b_facets tb)) eqn:Gf; [|discriminate]. injection H3 as -> <-.
  apply bind_inv in H. destruct H as (sfm & s3 & H3 & H). unfold rd in H3. destruct (get_facets (heap s2) (b_facets sb)); [|discriminate]. injection H3 as -> <-.
  apply bind_inv in H. destruct H as ([] & s3 & H3 & H). unfold Heap.write in H3. injection H3 as <-. apply get_facets_nth in Gf.
  match type of H with _ ?q = _ => set (s3 := q) in * end.
  assert (I3 : inv F1 (heap s3)) by (apply (inv_upd _ _ _ _ _ I2 Gf); discriminate).
  assert (G3 : get_base (heap s3) s = Some b2).
  { apply get_base_nth. apply get_base_nth in G2. unfold s3. cbn [heap]. rewrite nth_error_upd_neq; [exact G2|]. intros E. rewrite E in Gf. congruence. }
  clearbody s3. clear I2 G2 Gf.
  assert (Back : b_shape sb = Some SAny -> inv F (heap s3)).
  { intros E. split; [|exact (i_keyed _ _ I3)]. intros x b G. destruct (i_base _ _ I3 _ _ G) as [B1 B2]. split; [exact B1|]. intros Vb. destruct (B2 Vb) as [[X|[_ X]]|X]; auto. now destruct X. }
  assert (Rest : forall tsh ssh, b_shape tb = Some tsh -> b_shape sb = Some ssh ->
     bind (inherit_shape n rec s src tsh ssh) (fun _ => bind (upd_base src (set_visited false)) (fun _ => ret s)) s3 = (Ok y, s') -> inv F (heap s')).
  { intros tsh ssh Et Es X. apply bind_inv in X. destruct X as ([] & s4 & X4 & X).
    assert (I4 : inv F1 (heap s4)).
    { refine (k_inherit_shape F1 s3 s src tsh ssh tt s4 I3 _ (Lt _ Et) (Ls _ Es) X4). exists b2. split; [exact G3|congruence]. }
    apply bind_inv in X. destruct X as ([] & s5 & X5 & X). injection X as _ <-.
    unfold upd_base in X5. apply bind_inv in X5. destruct X5 as (b & s6 & Y & X5). unfold rd in Y. destruct (get_base (heap s4) src) as [b4|] eqn:G4; [|discriminate].
    injection Y as -> <-. unfold Heap.write in X5. injection X5 as <-. cbn [heap]. apply get_base_nth in G4 as N4. split.
    - intros x b1 G. apply get_base_nth in G. destruct (Nat.eq_dec src x) as [<-|Ne].
      + rewrite (nth_error_upd_eq _ _ _ _ N4) in G. injection G as <-. destruct (i_base _ _ I4 _ _ G4) as [B1 _]. split; [exact B1|]. cbn. discriminate.
      + rewrite nth_error_upd_neq in G by auto. apply get_base_nth in G. destruct (i_base _ _ I4 _ _ G) as [B1 B2]. split; [exact B1|]. intros Vb. destruct (B2 Vb) as [[X|[X _]]|X]; auto. congruence.
    - apply (inv_upd _ _ _ _ _ I4 N4); [|discriminate]. intros b1 [= <-]. destruct (i_base _ _ I4 _ _ G4) as [B1 _]. split; [exact B1|]. cbn. discriminate. }
  destruct (b_shape sb) as [ssh|] eqn:Es; [|destruct (b_shape tb) as [[]|]; discriminate H].
  assert (Ns : forall sl e, ssh <> SUnion sl e) by exact (proj1 (Ls _ eq_refl)).
  destruct (b_shape tb) as [tsh|] eqn:Et.
  2:{ destruct ssh; try discriminate H; [injection H as _ <-; now apply Back|now destruct (Ns anyof e)]. }
  assert (Nt : forall sl e, tsh <> SUnion sl e) by exact (proj1 (Lt _ eq_refl)).
  destruct ssh; try (destruct tsh; first [injection H as _ <-; now apply Back | exact (Rest _ _ eq_refl eq_refl H) | exfalso; eapply Nt; reflexivity]; fail).
  exfalso; eapply Ns; reflexivity.
Qed.
End Inh.

Lemma k_inherit n : forall F s src, keeps F (inherit n s src).
Proof. induction n as [|n IH]; intros F s src; cbn [inherit]; [apply k_diverge|]. now apply k_body. Qed.

Lemma alias_kin t s r : alias_shape t s = Ok r -> legal t -> legal r /\ (t = SAny -> r = SAny).
Proof.
  intros H [L1 [L2 L3]]. destruct t, s; cbn in H; try discriminate H; injection H as <-.
  all: first [ split; [split; [exact L1|split; [exact L2|exact L3]]|auto; discriminate] | split; [split; [discriminate|split; discriminate]|discriminate] | now destruct (L2 head) | now destruct (L1 anyof e) ].
Qed.
Lemma k_alias F t s : keeps F (alias_to t s).
Proof.
  unfold alias_to. apply k_rd. intros s0 b I G y s' H. destruct (i_base _ _ I _ _ G) as [B1 B2].
  apply bind_inv in H. destruct H as (sb & s1 & H1 & H). unfold rd in H1. destruct (get_base (heap s0) s) as [sb'|] eqn:Gs; [|discriminate]. injection H1 as -> <-.
  destruct (b_shape b) as [tsh|] eqn:Et; [|discriminate]. destruct (b_shape sb) as [ssh|]; [|discriminate].
  destruct (alias_shape tsh ssh) as [sh| | |] eqn:Ea; try discriminate. destruct (alias_kin _ _ _ Ea (B1 _ eq_refl)) as [La Aa].
  apply bind_inv in H. destruct H as ([] & s1 & H1 & H). injection H as _ <-. unfold Heap.write in H1. injection H1 as <-. cbn [heap].
  apply get_base_nth in G. apply (inv_upd _ _ _ _ _ I G); [|discriminate]. intros b' [= <-]. split; [intros sh' [= <-]; exact La|]. cbn. intros V.
  destruct (B2 V) as [X|X]; [now left|]. right. injection X as ->. now rewrite Aa.
Qed.

Section Unw.
Variable n : nat.
Variable F : addr -> Prop.
Variable rec : addr -> M addr.
Hypothesis Rec : forall a, keeps F (rec a).
Variable inh : addr -> addr -> M addr.
Hypothesis Inh : forall a c, keeps F (inh a c).

Lemma k_unwrap_map m : keeps F (unwrap_map n rec m).
Proof. unfold unwrap_map. apply k_loop_props. intros k p. apply k_bind; [apply Rec|intros; apply k_props_set]. Qed.
Lemma k_unwrap_optmap o : keeps F (unwrap_optmap n rec o).
Proof. destruct o; [apply k_unwrap_map|apply k_ret]. Qed.
Lemma k_unwrap_target a : keeps F (unwrap_target n rec a).
Proof.
  unfold unwrap_target. apply k_rd. intros s b I G y s' H. destruct (i_base _ _ I _ _ G) as [B1 _].
  destruct (b_shape b) as [sh|]; [|exact (k_ret F _ _ _ _ I H)].
  destruct sh as [| | | | | | | | | | |f|f|sl e| | |]; try exact (k_ret F _ _ _ _ I H).
  - destruct (a_items f); [|exact (k_ret F _ _ _ _ I H)]. refine (k_bind F _ _ (Rec _) _ _ _ _ I H). intros; apply k_upd_arr.
  - refine (k_bind F _ _ (k_unwrap_optmap _) _ _ _ _ I H). intros _. apply k_rd'. intros b'. destruct (b_shape b') as [[]|]; try apply k_ret. apply k_unwrap_optmap.
  - exfalso. exact (proj1 (B1 _ eq_refl) _ _ eq_refl).
Qed.
Lemma k_more k : forall sl ss i, keeps F (unwrap_more_parents rec k inh sl ss i).
Proof.
  induction k as [|k IH]; intros sl ss i; cbn [unwrap_more_parents]; [apply k_diverge|]. apply k_rd'. intros l. destruct (nth_error l i); [|apply k_ret].
  apply k_bind; [apply Rec|intros]. apply k_bind; [apply Inh|intros]. apply k_bind; [apply k_slice_set|intros; apply IH].
Qed.
Lemma k_parents a : keeps F (unwrap_parents n rec inh a).
Proof.
  unfold unwrap_parents. apply k_rd'. intros b. destruct (b_link b).
  - apply k_rd'. intros d. destruct d; [|apply k_panic]. apply k_bind; [apply Rec|intros]. apply k_bind; [apply k_upd; intros; split; reflexivity|intros; apply k_ret].
  - apply k_rd'. intros l. destruct l; [apply k_ret|]. apply k_bind; [apply Rec|intros]. apply k_bind; [apply k_slice_set|intros].
    apply k_bind; [apply k_more|intros; apply k_ret].
Qed.
Lemma k_fdefs a : keeps F (unwrap_fdefs n rec a).
Proof.
  unfold unwrap_fdefs. apply k_rd'. intros b. apply k_loop_props. intros k p. apply k_bind; [apply Rec|intros].
  apply k_bind; [apply k_alloc; [discriminate|intros l [= <-]; constructor]|intros]. apply k_bind; [apply k_upd; intros; split; reflexivity|intros].
  apply k_rd'. intros. apply k_props_set.
Qed.
End Unw.

Lemma k_unwrap F n : forall a, keeps F (unwrap n a).
Proof.
  induction n as [|n IH]; intros a; cbn [unwrap]; [apply k_diverge|]. apply k_rd'. intros b. destruct (b_shape b); [|apply k_fail]. destruct (b_unwrapped b); [apply k_ret|].
  apply k_bind; [apply k_upd; intros; split; reflexivity|intros]. destruct (b_alias b).
  - apply k_bind; [apply IH|intros]. apply k_bind; [apply k_put|intros]. apply k_alias.
  - apply k_bind; [apply k_parents; [exact IH|intros; apply k_inherit]|intros src]. apply k_bind; [now apply k_unwrap_target|intros].
    apply k_bind; [now apply k_fdefs|intros]. apply k_bind; [destruct src; [apply k_inherit|apply k_ret]|intros]. apply k_bind; [apply k_put|intros; apply k_ret].
Qed.

(** The declared types of a fragment; a failed type is remembered. *)
Lemma k_types F n loc l : forall i s ok l' i' s', inv F (heap s) -> unwrap_types n loc l i s = (Ok (ok, l', i'), s') -> ok = true -> inv F (heap s').
Proof.
  induction l as [|[k a] l IH]; intros i s ok l' i' s' I H E; cbn [unwrap_types] in H; [injection H as _ _ _ <-; exact I|].
  apply bind_inv in H. destruct H as (r & s1 & H1 & H). unfold try in H1. destruct (unwrap n a s) as [[us| | |] s2] eqn:U; try discriminate.
  - injection H1 as <- <-. pose proof (k_unwrap F n a _ _ _ I U) as I1. apply bind_inv in H. destruct H as (ub & s3 & H3 & H). unfold rd in H3.
    destruct (get_base (heap s2) us); [|discriminate]. injection H3 as _ <-. apply bind_inv in H. destruct H as ([[ok1 l1] i1] & s4 & H4 & H). injection H as <- _ _ <-. exact (IH _ _ _ _ _ _ I1 H4 E).
  - injection H1 as <- <-. apply bind_inv in H. destruct H as ([[ok1 l1] i1] & s4 & H4 & H). injection H as <- _ _ _. discriminate.
Qed.

Lemma k_relink F a us : keeps F (relink a us).
Proof.
  intros s x s' I H. injection H as _ <-. cbn [heap].
  set (f := fun c => match c with CDT (Some x) => if Nat.eqb x a then CDT (Some us) else c | _ => c end).
  assert (D : forall y c', nth_error (map f (heap s)) y = Some c' -> (forall d, c' <> CDT d) -> nth_error (heap s) y = Some c').
  { intros y c' N Nd. rewrite nth_error_map in N. destruct (nth_error (heap s) y) as [c|]; [|discriminate]. cbn in N. injection N as <-.
    destruct c as [| | | |[d|]]; try reflexivity; unfold f in Nd. destruct (Nat.eqb d a); now destruct (Nd _ eq_refl). }
  split.
  - intros y b G. apply get_base_nth in G. apply (i_base _ _ I). apply get_base_nth, D; [exact G|discriminate].
  - intros y b G. apply get_props_nth in G. apply (i_keyed _ _ I y). apply get_props_nth, D; [exact G|discriminate].
Qed.

Lemma k_fragment F n loc f u s u' s' : unwrap_fragment n loc f u s = (Ok u', s') -> u_ok u' = true -> u_ok u = true /\ (inv F (heap s) -> inv F (heap s')).
Proof.
  intros H E. destruct f as [l|uses [a|]|]; cbn [unwrap_fragment] in H.
  - destruct (nth_error (u_libs u) l) as [lib|]; [|discriminate]. apply bind_inv in H. destruct H as ([[ok an] ia] & s1 & H1 & H).
    apply bind_inv in H. destruct H as ([[ok' ty] it] & s2 & H2 & H). injection H as <- <-. cbn [u_ok] in E. apply andb_prop in E. destruct E as [E E2]. apply andb_prop in E. destruct E as [E0 E1].
    split; [exact E0|]. intros I. exact (k_types _ _ _ _ _ _ _ _ _ _ (k_types _ _ _ _ _ _ _ _ _ _ I H1 E1) H2 E2).
  - apply bind_inv in H. destruct H as (r & s1 & H1 & H). unfold try in H1. destruct (unwrap n a s) as [[us| | |] s2] eqn:U; try discriminate.
    + injection H1 as <- <-. apply bind_inv in H. destruct H as ([] & s3 & H3 & H).
      apply bind_inv in H. destruct H as (ub & s4 & H4 & H). unfold rd in H4. destruct (get_base (heap s3) us); [|discriminate]. injection H4 as _ <-. injection H as <- <-. split; [exact E|]. intros I. exact (k_relink _ _ _ _ _ _ (k_unwrap F n a _ _ _ I U) H3).
    + injection H1 as <- <-. injection H as <- <-. discriminate.
  - injection H as <- <-. discriminate.
  - injection H as <- <-. auto.
Qed.
Lemma k_fragments F n order : forall u s u' s', unwrap_fragments n order u s = (Ok u', s') -> u_ok u' = true -> u_ok u = true /\ (inv F (heap s) -> inv F (heap s')).
Proof.
  induction order as [|k order IH]; intros u s u' s' H E; cbn [unwrap_fragments] in H; [injection H as <- <-; auto|].
  destruct (oget k (u_frags u)) as [f|]; [|eauto]. apply bind_inv in H. destruct H as (u1 & s1 & H1 & H).
  destruct (IH _ _ _ _ H E) as [E1 I1]. destruct (k_fragment F _ _ _ _ _ _ _ H1 E1) as [E0 I0]. auto.
Qed.
End Flags.
