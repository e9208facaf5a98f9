(** Recursion marking: checks end, and accepted values stay the same. *)
From Coq Require Import ZArith List String Bool Lia Arith.
From Verif Require Import Base Scalars Heap Validate Spec_Validate Validate_proofs Check_proofs
  Heap_lemmas Spec_Mark Mark_proofs.
Import ListNotations.
Open Scope string_scope.
Open Scope list_scope.
Open Scope nat_scope.

(** * Check ends on a graph of finite descent *)

Lemma check_all_fuel rec l : (forall a, In a l -> rec a <> OutOfFuel) -> check_all rec l <> OutOfFuel.
Proof.
  induction l as [|a l IH]; intros H; cbn [check_all]; [discriminate|].
  pose proof (H a (or_introl eq_refl)) as K.
  destruct (rec a); cbn [rbind]; try discriminate; [|congruence].
  apply IH. intros x I. apply H. now right.
Qed.

Lemma scalar_fuel O h a b sh v n : get_base h a = Some b -> b_shape b = Some sh -> is_scalar sh = true ->
  validate (S n) O h a v <> OutOfFuel.
Proof.
  intros G S I. rewrite validate_S, G, S.
  destruct (scalar_validate O sh v) as [r|] eqn:E.
  - destruct (scalar_decided _ _ _ _ E) as [->| ->]; discriminate.
  - destruct sh; discriminate.
Qed.

Lemma disc_fuel O h f ps n : check_discriminator (validate (S n) O h) h f ps <> OutOfFuel.
Proof.
  unfold check_discriminator. destruct (o_disc f); [|discriminate].
  destruct (oget s ps) as [p|]; [|discriminate].
  destruct (get_base h (p_base p)) as [b|] eqn:G; [|discriminate].
  destruct (b_shape b) as [sh|] eqn:S; [|discriminate].
  destruct (is_scalar sh) eqn:I; cbn [negb]; [|discriminate].
  destruct (o_discval f); [|discriminate]. eapply scalar_fuel; eauto.
Qed.

Lemma rbind_fuel {A B} (r : res A) (f : A -> res B) :
  r <> OutOfFuel -> (forall a, f a <> OutOfFuel) -> rbind r f <> OutOfFuel.
Proof. destruct r; simpl; auto; discriminate. Qed.

Lemma object_check_fuel O h n f (Hn : 1 <= n) :
  (forall c, child h (SObject f) c -> check n O h c <> OutOfFuel) ->
  object_check (check n O h) (validate n O h) h f <> OutOfFuel.
Proof.
  intros H. unfold object_check. destruct (crossed _ _ _); [discriminate|].
  apply rbind_fuel.
  - destruct (o_pprops f) as [m|] eqn:E; [|discriminate].
    assert (K : match get_props h m with Some l => check_all (check n O h) (bases l) | None => Panic end
                <> OutOfFuel).
    { destruct (get_props h m) as [l|] eqn:G; [|discriminate]. apply check_all_fuel. intros a I.
      apply in_bases in I. destruct I as (k & p & I & <-). apply H.
      apply (ch_pprop h f l k p); [right; eauto|exact I]. }
    destruct (o_addl f) as [[|]|]; auto; discriminate.
  - intros _. destruct (o_props f) as [m|] eqn:E; [|destruct (o_disc f); discriminate].
    destruct (get_props h m) as [l|] eqn:G; [|discriminate]. apply rbind_fuel.
    + apply check_all_fuel. intros a I.
      apply in_bases in I. destruct I as (k & p & I & <-). apply H.
      apply (ch_prop h f l k p); [right; eauto|exact I].
    + intros _. destruct n; [lia|]. apply disc_fuel.
Qed.

Definition kids (h : list cell) (sh : shape) : list addr :=
  match sh with
  | SArray f => match a_items f with Some i => [i] | None => [] end
  | SObject f => match opt_props h (o_props f) with Some l => bases l | None => [] end
                 ++ match opt_props h (o_pprops f) with Some l => bases l | None => [] end
  | SUnion sl _ => match get_slice h sl with Some l => l | None => [] end
  | _ => []
  end.

Lemma kids_iff h sh c : norec sh -> (In c (kids h sh) <-> child h sh c).
Proof.
  intros N. split.
  - destruct sh; cbn [kids]; try contradiction.
    + destruct (a_items f) eqn:E; [|contradiction]. intros [<-|[]]. now constructor.
    + intros I. apply in_app_or in I. destruct I as [I|I].
      * destruct (opt_props h (o_props f)) eqn:E; [|contradiction]. apply opt_props_of in E.
        apply in_bases in I. destruct I as (k & p & I & <-). eapply ch_prop; eauto.
      * destruct (opt_props h (o_pprops f)) eqn:E; [|contradiction]. apply opt_props_of in E.
        apply in_bases in I. destruct I as (k & p & I & <-). eapply ch_pprop; eauto.
    + destruct (get_slice h anyof) eqn:E; [|contradiction]. intros I. econstructor; eauto.
  - intros C. destruct C; cbn [kids].
    + rewrite H. now left.
    + apply opt_props_of in H. rewrite H. apply in_or_app. left. apply in_bases. eauto.
    + apply opt_props_of in H. rewrite H. apply in_or_app. right. apply in_bases. eauto.
    + now rewrite H.
    + exfalso. eapply N; reflexivity.
Qed.

Lemma check_ends O h a : finite_descent h a -> exists N, forall n, N <= n -> check n O h a <> OutOfFuel.
Proof.
  induction 1 as [a _ IH].
  destruct (get_base h a) as [b|] eqn:G.
  2: { exists 1. intros [|n] L; [lia|]. cbn [check]. rewrite G. discriminate. }
  destruct (b_shape b) as [sh|] eqn:Sb.
  2: { exists 1. intros [|n] L; [lia|]. cbn [check]. rewrite G, Sb. discriminate. }
  assert (D : (exists hd, sh = SRec hd) \/ norec sh).
  { destruct sh; try (right; intros hd; discriminate). left; eauto. }
  destruct D as [[hd ->]|NR].
  { exists 1. intros [|n] L; [lia|]. cbn [check]. rewrite G, Sb. discriminate. }
  assert (K : exists N, forall c, In c (kids h sh) -> forall n, N <= n -> check n O h c <> OutOfFuel).
  { apply (bound_list (kids h sh) (fun c N => forall n, N <= n -> check n O h c <> OutOfFuel)).
    - intros c n m L H n' L'. apply H. lia.
    - intros c I. apply IH. apply ds_child with sh; auto; [exists b; auto|now apply kids_iff]. }
  destruct K as [N K]. exists (S (S N)). intros [|n] L; [lia|]. cbn [check]. rewrite G, Sb.
  assert (K' : forall c, child h sh c -> check n O h c <> OutOfFuel).
  { intros c C. apply K; [now apply kids_iff|lia]. }
  destruct sh; try discriminate.
  - unfold int_check. destruct (crossed _ _ _); [discriminate|]. destruct (negb _); [discriminate|].
    destruct (if_format f); [|discriminate]. destruct (int_format_code s); discriminate.
  - unfold num_check. destruct (crossed _ _ _); [discriminate|]. destruct (negb _); discriminate.
  - unfold str_check. destruct (crossed _ _ _); [discriminate|]. destruct (negb _); discriminate.
  - unfold file_check. destruct (crossed _ _ _); [discriminate|]. destruct (negb _); discriminate.
  - unfold bool_check. destruct (negb _); discriminate.
  - destruct (crossed _ _ _); [discriminate|]. destruct (a_items f) eqn:E; [|discriminate].
    apply K'. now constructor.
  - apply object_check_fuel; [lia|exact K'].
  - destruct (get_slice h anyof) eqn:E; [|discriminate]. apply check_all_fuel.
    intros x I. apply K'. econstructor; eauto.
Qed.

(** * Two validators over graphs that correspond *)

Lemma approx_trans {A} (x y z : res A) : approx x y -> approx y z -> approx x z.
Proof. intros [->| ->]; [now left|auto]. Qed.

Section Two.
Variables (O : oracle) (r1 r2 : addr -> gval -> res unit) (R : addr -> addr -> Prop).
Hypothesis Hr : forall c c' w, R c c' -> approx (r1 c w) (r2 c' w).

Definition Er (e e' : string * prop) : Prop :=
  fst e' = fst e /\ p_name (snd e') = p_name (snd e) /\ p_req (snd e') = p_req (snd e)
  /\ R (p_base (snd e)) (p_base (snd e')).

Definition Or (o o' : option addr) : Prop :=
  match o, o' with None, None => True | Some x, Some y => R x y | _, _ => False end.

Lemma items_loop_two i i' u l : Or i i' -> forall seen,
  approx (items_loop O r1 i u l seen) (items_loop O r2 i' u l seen).
Proof.
  intros HO. induction l as [|x l IH]; intros seen; cbn [items_loop]; [apply approx_refl|].
  apply approx_rbind; [destruct i, i'; try contradiction; [apply Hr; exact HO|apply approx_refl]|].
  intros _. destruct u; [|apply IH]. destruct (item_hash O x); [apply IH|apply approx_refl].
Qed.

Lemma pattern_loop_two k x l l' : Forall2 Er l l' -> forall failed,
  approx (pattern_loop O r1 k x l failed) (pattern_loop O r2 k x l' failed).
Proof.
  induction 1 as [|[k1 p1] [k2 p2] l l' E F IH]; intros failed; cbn [pattern_loop]; [apply approx_refl|].
  destruct E as (_ & N & _ & B). cbn in N, B. rewrite N.
  destruct (o_match O (p_name p1) k); [|apply IH].
  destruct (Hr _ _ x B) as [->| ->]; [now left|].
  destruct (r1 (p_base p1) x); auto using approx_refl.
Qed.

Lemma oget_two k l l' : Forall2 Er l l' ->
  match oget k l, oget k l' with
  | None, None => True
  | Some p, Some p' => R (p_base p) (p_base p')
  | _, _ => False
  end.
Proof.
  induction 1 as [|[k1 p1] [k2 p2] l l' E F IH]; cbn [oget]; auto.
  destruct E as (K & _ & _ & B). cbn in K, B. subst k2.
  destruct (String.eqb k k1); auto.
Qed.

Lemma missing_two l l' kvs : Forall2 Er l l' -> missing_required l' kvs = missing_required l kvs.
Proof.
  unfold missing_required. induction 1 as [|[k1 p1] [k2 p2] l l' E F IH]; cbn [existsb]; auto.
  destruct E as (K & _ & Q & _). cbn in K, Q |- *. rewrite K, Q, IH. reflexivity.
Qed.

Lemma props_loop_two ps ps' pps pps' restricted kvs : Forall2 Er ps ps' -> Forall2 Er pps pps' ->
  approx (props_loop O r1 ps pps restricted kvs) (props_loop O r2 ps' pps' restricted kvs).
Proof.
  intros F G. induction kvs as [|[k x] kvs IH]; cbn [props_loop]; [apply approx_refl|].
  apply approx_rbind; [|auto].
  pose proof (oget_two k _ _ F) as E. destruct (oget k ps), (oget k ps'); try contradiction.
  - apply Hr, E.
  - destruct restricted; [apply approx_refl|]. now apply pattern_loop_two.
Qed.

Lemma union_two l l' v : Forall2 R l l' -> approx (union_validate r1 l v) (union_validate r2 l' v).
Proof.
  induction 1 as [|a a' l l' E F IH]; cbn [union_validate]; [apply approx_refl|].
  destruct (Hr _ _ v E) as [->| ->]; [now left|].
  destruct (r1 a v); auto using approx_refl.
Qed.

Lemma array_two f f' v : a_min f' = a_min f -> a_max f' = a_max f -> a_uniq f' = a_uniq f ->
  Or (a_items f) (a_items f') -> approx (array_validate O r1 f v) (array_validate O r2 f' v).
Proof.
  intros E1 E2 E3 HO. unfold array_validate. rewrite E1, E2, E3. destruct v; try apply approx_refl. cbv zeta.
  destruct (below _ _ _); [apply approx_refl|]. destruct (above _ _ _); [apply approx_refl|].
  apply approx_rbind; [now apply items_loop_two|]. intros; apply approx_refl.
Qed.

Lemma object_two f ps ps' pps pps' v : Forall2 Er ps ps' -> Forall2 Er pps pps' ->
  approx (object_validate O r1 f ps pps v) (object_validate O r2 f ps' pps' v).
Proof.
  intros F G. unfold object_validate. destruct v; try apply approx_refl. cbv zeta.
  destruct (below _ _ _); [apply approx_refl|]. destruct (above _ _ _); [apply approx_refl|].
  rewrite (missing_two _ _ _ F).
  destruct (missing_required _ _); [apply approx_refl|]. now apply props_loop_two.
Qed.
End Two.

(** * Chains of leaves validate like their end *)

Lemma validate_more n m O h a v : n <= m -> approx (validate n O h a v) (validate m O h a v).
Proof.
  induction 1 as [|m _ IH]; [apply approx_refl|].
  eapply approx_trans; [exact IH|apply validate_approx].
Qed.

Lemma chain_from O h k x a v : rchain h k x a -> forall m,
  approx (validate m O h a v) (validate (m + k) O h x v).
Proof.
  induction 1 as [k x|k x b y z G Sb _ R IH]; intros m.
  - apply validate_more. lia.
  - replace (m + S k) with (S (m + k)) by lia. cbn [validate]. rewrite G, Sb. apply IH.
Qed.

Lemma chain_to O h k x a v : rchain h k x a -> forall m,
  approx (validate m O h x v) (validate m O h a v).
Proof.
  induction 1 as [k x|k x b y z G Sb _ R IH]; intros m; [apply approx_refl|].
  destruct m as [|m]; [now left|]. cbn [validate]. rewrite G, Sb.
  eapply approx_trans; [apply IH|]. apply (validate_more m (S m)). lia.
Qed.

(** * Marking preserves validation *)

Section Preserve.
Variables (O : oracle) (h h' : list cell) (k : nat).
Hypothesis HC : closed h.
Hypothesis HR : redir k h h'.

Definition at_h (x : addr) : Prop := exists sh, shape_at h x sh.
Definition fwd (x x' : addr) : Prop := at_h x /\ rchain h' k x' x.
Definition bwd (x' x : addr) : Prop := at_h x /\ rchain h' k x' x.

Lemma props_fwd o ps : props_of h o ps -> (forall c p, In (c, p) ps -> at_h (p_base p)) ->
  exists ps', opt_props h' o = Some ps' /\ Forall2 (Er fwd) ps ps' /\ Forall2 (Er bwd) ps' ps.
Proof.
  intros P K. destruct (props_of_redir_ex _ _ _ _ _ HR P) as [ps' P'].
  pose proof (props_of_redir _ _ _ _ _ _ HR P P') as F. exists ps'.
  split; [now apply opt_props_of|]. clear P P'. split.
  - induction F as [|[a p] [a' p'] l l' (E1 & E2 & E3 & E4) F IH]; constructor.
    + repeat split; auto. exact (K a p (or_introl eq_refl)).
    + apply IH. intros c q I. apply (K c q). now right.
  - induction F as [|[a p] [a' p'] l l' (E1 & E2 & E3 & E4) F IH]; constructor.
    + repeat split; auto. exact (K a p (or_introl eq_refl)).
    + apply IH. intros c q I. apply (K c q). now right.
Qed.

Lemma slice_fwd sl l : get_slice h sl = Some l -> (forall c, In c l -> at_h c) ->
  exists l', get_slice h' sl = Some l' /\ Forall2 fwd l l' /\ Forall2 bwd l' l.
Proof.
  intros P K. destruct HR as (_ & _ & HS & _). destruct (HS _ _ P) as (l' & E & F). exists l'.
  split; [exact E|]. clear E P. split.
  - induction F as [|x x' l l' E F IH]; constructor.
    + split; auto. apply K. now left.
    + apply IH. intros c I. apply K. now right.
  - induction F as [|x x' l l' E F IH]; constructor.
    + split; auto. apply K. now left.
    + apply IH. intros c I. apply K. now right.
Qed.

Lemma level n m v a sh :
  (forall c c' w, fwd c c' -> approx (validate n O h c w) (validate m O h' c' w)) ->
  shape_at h a sh -> approx (validate (S n) O h a v) (validate (S m) O h' a v).
Proof.
  intros IH (b & G & Sb). destruct HR as (HB & _). destruct (HB _ _ G) as (b' & G' & _ & SR).
  assert (HS : shape_at h a sh) by (exists b; auto). destruct (HC _ _ HS) as [Hch Hco].
  rewrite !validate_S, G, G', Sb. destruct SR as [SR|(f & i & i' & E1 & E2 & E3 & E4)].
  - rewrite SR, Sb. destruct (scalar_validate O sh v); [apply approx_refl|].
    destruct sh; try apply approx_refl.
    + apply array_two with (R := fwd); auto. destruct (a_items f) eqn:E; simpl; auto.
      split; [apply Hch; now constructor|constructor].
    + destruct Hco as ((ps & P) & (pps & Q)).
      destruct (props_fwd _ _ P) as (ps' & P' & F & _). { intros c p I. apply Hch. eapply ch_prop; eauto. }
      destruct (props_fwd _ _ Q) as (pps' & Q' & F' & _). { intros c p I. apply Hch. eapply ch_pprop; eauto. }
      apply opt_props_of in P, Q. rewrite P, P', Q, Q'. apply object_two with (R := fwd); auto.
    + destruct Hco as [l El]. destruct (slice_fwd _ _ El) as (l' & El' & F & _).
      { intros c I. apply Hch. econstructor; eauto. }
      rewrite El, El'. eapply union_two; eauto.
    + apply IH. split; [apply Hch; constructor|constructor].
  - rewrite E3. assert (sh = SArray f) by congruence. subst sh. cbn [scalar_validate].
    apply array_two with (R := fwd); auto. rewrite E2. simpl. split; auto. apply Hch. now constructor.
Qed.

Lemma level_back n m v a sh :
  (forall c c' w, bwd c c' -> approx (validate n O h' c w) (validate m O h c' w)) ->
  shape_at h a sh -> approx (validate (S n) O h' a v) (validate (S m) O h a v).
Proof.
  intros IH (b & G & Sb). destruct HR as (HB & _). destruct (HB _ _ G) as (b' & G' & _ & SR).
  assert (HS : shape_at h a sh) by (exists b; auto). destruct (HC _ _ HS) as [Hch Hco].
  rewrite !validate_S, G, G', Sb. destruct SR as [SR|(f & i & i' & E1 & E2 & E3 & E4)].
  - rewrite SR, Sb. destruct (scalar_validate O sh v); [apply approx_refl|].
    destruct sh; try apply approx_refl.
    + apply array_two with (R := bwd); auto. destruct (a_items f) eqn:E; simpl; auto.
      split; [apply Hch; now constructor|constructor].
    + destruct Hco as ((ps & P) & (pps & Q)).
      destruct (props_fwd _ _ P) as (ps' & P' & _ & F). { intros c p I. apply Hch. eapply ch_prop; eauto. }
      destruct (props_fwd _ _ Q) as (pps' & Q' & _ & F'). { intros c p I. apply Hch. eapply ch_pprop; eauto. }
      apply opt_props_of in P, Q. rewrite P, P', Q, Q'. apply object_two with (R := bwd); auto.
    + destruct Hco as [l El]. destruct (slice_fwd _ _ El) as (l' & El' & _ & F).
      { intros c I. apply Hch. econstructor; eauto. }
      rewrite El, El'. eapply union_two; eauto.
    + apply IH. split; [apply Hch; constructor|constructor].
  - rewrite E3. assert (sh = SArray f) by congruence. subst sh. cbn [scalar_validate].
    apply array_two with (R := bwd); auto. rewrite E2. simpl. split; auto. apply Hch. now constructor.
Qed.

Lemma validate_fwd n : forall x x' v, fwd x x' ->
  approx (validate n O h x v) (validate (n * S k) O h' x' v).
Proof.
  induction n as [|n IH]; intros x x' v [[sh H] R]; [now left|].
  eapply approx_trans; [eapply (level n (n * S k)); [|exact H]|].
  - intros c c' w F. apply IH, F.
  - replace (S n * S k) with (S (n * S k) + k) by lia. now apply chain_from.
Qed.

Lemma validate_bwd n : forall x' x v, bwd x' x ->
  approx (validate n O h' x' v) (validate n O h x v).
Proof.
  induction n as [|n IH]; intros x' x v [[sh H] R]; [now left|].
  eapply approx_trans; [eapply chain_to; exact R|].
  eapply level_back; [|exact H]. intros c c' w F. apply IH, F.
Qed.

Lemma same_outcome x x' v r : at_h x -> rchain h' k x' x -> r <> OutOfFuel ->
  ((exists n, validate n O h x v = r) <-> (exists n, validate n O h' x' v = r)).
Proof.
  intros A R N. split; intros [n E].
  - exists (n * S k). destruct (validate_fwd n x x' v) as [Q|Q]; [split; auto|congruence|congruence].
  - exists n. destruct (validate_bwd n x' x v) as [Q|Q]; [split; auto|congruence|congruence].
Qed.
End Preserve.

Lemma mark_same_outcome n a s q s' O x sh v r :
  closed (heap s) -> maps_keyed (heap s) -> mark n a s = (q, s') -> shape_at (heap s) x sh ->
  r <> OutOfFuel ->
  ((exists m, validate m O (heap s) x v = r) <-> (exists m, validate m O (heap s') x v = r)).
Proof.
  intros C K E H N. destruct (mark_good n _ _ _ _ K E) as [(_ & k & R) _].
  eapply same_outcome; eauto; [exists sh; auto|constructor].
Qed.

Lemma mark_result_outcome n a s y s' O sh v r :
  closed (heap s) -> maps_keyed (heap s) -> mark n a s = (Ok (Some y), s') -> shape_at (heap s) a sh ->
  r <> OutOfFuel ->
  ((exists m, validate m O (heap s) a v = r) <-> (exists m, validate m O (heap s') y v = r)).
Proof.
  intros C K E H N. rewrite (mark_same_outcome n a s (Ok (Some y)) s' O a sh v r C K E H N).
  destruct (mark_good n _ _ _ _ K E) as [_ L]. simpl in L.
  destruct L as (b & G & Sb & _). split; intros [m Em].
  - exists (S m). cbn [validate]. now rewrite G, Sb.
  - destruct m; [cbn in Em; congruence|]. exists m. cbn [validate] in Em. now rewrite G, Sb in Em.
Qed.

(** * What marking writes *)

Lemma same_shape_srel h k o o' : srel h k o o' -> same_shape h o o'.
Proof.
  intros [->|(f & i & i' & A & B & C & D)]; [now left|]. right. exists f, i, i'.
  split; [exact A|split; [exact B|split; [exact C|exact (rchain_stands _ _ _ _ D)]]].
Qed.

Lemma mark_writes n a s q s' : maps_keyed (heap s) -> mark n a s = (q, s') ->
  (forall x b, get_base (heap s) x = Some b ->
     exists b', get_base (heap s') x = Some b' /\ same_base (heap s') b b')
  /\ (forall m, same_map (heap s) (heap s') m) /\ (forall sl, same_slice (heap s) (heap s') sl)
  /\ (forall f l, get_facets (heap s) f = Some l -> get_facets (heap s') f = Some l)
  /\ (forall d l, get_dt (heap s) d = Some l -> get_dt (heap s') d = Some l)
  /\ (forall x b, List.length (heap s) <= x -> get_base (heap s') x = Some b ->
        exists hd, b_shape b = Some (SRec hd)).
Proof.
  intros K E. destruct (mark_good n _ _ _ _ K E) as [(_ & k & R) _].
  destruct R as (R1 & R2 & R3 & R4 & R5 & R6). split; [|split; [|split; [|split; [|split]]]]; auto.
  - intros x b G. destruct (R1 _ _ G) as (b' & G' & Q & S'). exists b'. split; auto. split; auto.
    eapply same_shape_srel; eauto.
  - intros m l G. destruct (R2 _ _ G) as (l' & G' & F). exists l'. split; auto.
    eapply F2_mono; [|exact F]. intros x y (A & B & C & D).
    split; [exact A|split; [exact B|split; [exact C|exact (rchain_stands _ _ _ _ D)]]].
  - intros m l G. destruct (R3 _ _ G) as (l' & G' & F). exists l'. split; auto.
    eapply F2_mono; [|exact F]. intros x y D. exact (rchain_stands _ _ _ _ D).
  - intros x b L G. assert (N : nth_error (heap s) x = None) by now apply nth_error_None.
    apply get_base_nth in G. destruct (R6 _ _ N G) as [A _]. exact A.
Qed.

Lemma mark_finite n a s s' : maps_keyed (heap s) -> mark n a s = (Ok None, s') ->
  finite_descent (heap s') a.
Proof. intros K E. destruct (mark_good n _ _ _ _ K E) as [_ L]. now apply ends_descent. Qed.

Lemma mark_finite_some n a s y s' : maps_keyed (heap s) -> mark n a s = (Ok (Some y), s') ->
  finite_descent (heap s') y /\ shape_at (heap s') y (SRec a).
Proof.
  intros K E. destruct (mark_good n _ _ _ _ K E) as [_ L]. simpl in L. split.
  - apply ends_descent. eapply leaf_ends; eauto.
  - destruct L as (b & G & Sb & _). exists b; auto.
Qed.

(** * Flags *)

Definition flag (h : list cell) (x : addr) : bool :=
  match get_base h x with Some b => b_visited b | None => false end.
Definition flags_eq (s s' : st) : Prop := forall x, flag (heap s') x = flag (heap s) x.
Definition keeps_flags {A} (m : M A) : Prop := forall s r s', m s = (Ok r, s') -> flags_eq s s'.

Lemma flags_refl s : flags_eq s s. Proof. intros x. reflexivity. Qed.
Lemma flags_trans s1 s2 s3 : flags_eq s1 s2 -> flags_eq s2 s3 -> flags_eq s1 s3.
Proof. intros A B x. rewrite B. apply A. Qed.

Lemma kf_ret {A} (x : A) : keeps_flags (ret x).
Proof. intros s r s' H. injection H as _ <-. apply flags_refl. Qed.
Lemma kf_bind {A B} (m : M A) (f : A -> M B) : keeps_flags m -> (forall a, keeps_flags (f a)) ->
  keeps_flags (bind m f).
Proof.
  intros Hm Hf s r s' H. apply bind_run in H. destruct H as [(a & s1 & H1 & H2)|(U & _)].
  - eapply flags_trans; [eapply Hm; eauto|eapply Hf; eauto].
  - exfalso. eapply U; reflexivity.
Qed.
Lemma kf_rd {A B} (get : list cell -> addr -> option A) a (f : A -> M B) :
  (forall x, keeps_flags (f x)) -> keeps_flags (bind (rd get a) f).
Proof.
  intros Hf s r s' H. apply rd_run in H. destruct H as [(x & _ & H)|[H _]]; [eapply Hf; eauto|discriminate].
Qed.
Lemma kf_none {A} (m : M A) : (forall s r s', m s <> (Ok r, s')) -> keeps_flags m.
Proof. intros H s r s' E. exfalso. eapply H; eauto. Qed.

Lemma flag_upd_other h m c c0 x : nth_error h m = Some c0 ->
  (forall b, c0 <> CBase b) -> (forall b, c <> CBase b) -> flag (upd m c h) x = flag h x.
Proof.
  intros N A B. unfold flag, get_base. destruct (Nat.eq_dec m x) as [->|D].
  - rewrite (nth_error_upd_eq _ _ _ _ N). rewrite N.
    destruct c as [b'| | | |]; [exfalso; exact (B b' eq_refl)|..].
    all: destruct c0 as [b0| | | |]; try reflexivity; exfalso; exact (A b0 eq_refl).
  - now rewrite nth_error_upd_neq.
Qed.

Lemma flag_upd_base h m b b0 x : get_base h m = Some b0 ->
  flag (upd m (CBase b) h) x = if Nat.eqb m x then b_visited b else flag h x.
Proof.
  intros N. apply get_base_nth in N. unfold flag, get_base. destruct (Nat.eqb_spec m x) as [->|D].
  - rewrite (nth_error_upd_eq _ _ _ _ N). reflexivity.
  - now rewrite nth_error_upd_neq.
Qed.

Lemma kf_props_set m k p : keeps_flags (props_set m k p).
Proof.
  intros s r s' H. apply rd_run in H. destruct H as [(l & G & H)|[H _]]; [|discriminate].
  injection H as _ <-. intros x. simpl. apply get_props_nth in G.
  eapply flag_upd_other; [exact G|discriminate|discriminate].
Qed.
Lemma kf_slice_set m k p : keeps_flags (slice_set m k p).
Proof.
  intros s r s' H. apply rd_run in H. destruct H as [(l & G & H)|[H _]]; [|discriminate].
  destruct (nth_error l k); [|discriminate].
  injection H as _ <-. intros x. simpl. apply get_slice_nth in G.
  eapply flag_upd_other; [exact G|discriminate|discriminate].
Qed.
Lemma kf_upd_arr a f : keeps_flags (upd_arr a f).
Proof.
  intros s r s' H. apply rd_run in H. destruct H as [(b & G & H)|[H _]]; [|discriminate].
  destruct (b_shape b) as [[]|]; try (injection H as _ <-; apply flags_refl).
  injection H as _ <-. intros x. simpl. rewrite (flag_upd_base _ _ _ _ _ G).
  destruct (Nat.eqb_spec a x) as [->|D]; auto. unfold flag. rewrite G. destruct b; reflexivity.
Qed.

Lemma kf_loop_props n m : forall i body, (forall k p, keeps_flags (body k p)) ->
  keeps_flags (loop_props n m i body).
Proof.
  induction n as [|n IH]; intros i body H; cbn [loop_props]; [apply kf_none; discriminate|].
  apply kf_rd. intros l. destruct (nth_error l i) as [[k p]|]; [|apply kf_ret].
  apply kf_bind; auto.
Qed.
Lemma kf_loop_slice n m : forall i body, (forall k p, keeps_flags (body k p)) ->
  keeps_flags (loop_slice n m i body).
Proof.
  induction n as [|n IH]; intros i body H; cbn [loop_slice]; [apply kf_none; discriminate|].
  apply kf_rd. intros l. destruct (nth_error l i) as [p|]; [|apply kf_ret].
  apply kf_bind; auto.
Qed.

Lemma make_base_flag nm loc s : exists nb s1, make_base nm loc s = (Ok (List.length (heap s) + 3), s1)
  /\ heap s1 = heap s ++ [CFacets []; CProps []; CSlice []; CBase nb] /\ b_visited nb = false.
Proof.
  unfold make_base, gen_id, alloc, put_shape, ret, bind. simpl. do 2 eexists. split; [|split].
  - f_equal. f_equal. repeat rewrite app_length. simpl. lia.
  - simpl. repeat rewrite <- app_assoc. reflexivity.
  - reflexivity.
Qed.

Lemma kf_make_recursive a : keeps_flags (make_recursive a).
Proof.
  intros s r s' H. apply rd_run in H. destruct H as [(hb & G & H)|[H _]]; [|discriminate].
  destruct (make_base_flag (b_name hb) (b_loc hb) s) as (nb & s1 & E1 & Eh & Ef).
  rewrite (bind_ok _ _ _ _ _ E1) in H. unfold upd_base, bind, rd, write, ret in H.
  set (x0 := List.length (heap s) + 3) in *.
  assert (Gx : get_base (heap s1) x0 = Some nb).
  { apply get_base_nth. rewrite Eh, nth_error_app2 by (unfold x0; lia).
    replace (x0 - List.length (heap s)) with 3 by (unfold x0; lia). reflexivity. }
  rewrite Gx in H. injection H as _ <-. intros x. simpl. rewrite (flag_upd_base _ _ _ _ _ Gx). simpl.
  rewrite Ef. destruct (Nat.eqb_spec x0 x) as [<-|D].
  - unfold flag, get_base. assert (N : nth_error (heap s) x0 = None) by (apply nth_error_None; unfold x0; lia).
    now rewrite N.
  - unfold flag, get_base. rewrite Eh. destruct (Nat.lt_ge_cases x (List.length (heap s))) as [Lx|Lx].
    + now rewrite nth_error_app1.
    + assert (N : nth_error (heap s) x = None) by (apply nth_error_None; lia). rewrite N.
      rewrite nth_error_app2 by auto.
      destruct (x - List.length (heap s)) as [|[|[|[|q]]]] eqn:Q; simpl; auto. destruct q; auto.
Qed.

Section KfParts.
Variables (n : nat) (rec : addr -> M (option addr)).
Hypothesis Hrec : forall a, keeps_flags (rec a).

Lemma kf_mark_map m : keeps_flags (mark_map n rec m).
Proof.
  apply kf_loop_props. intros k p. apply kf_bind; auto. intros [x|]; [apply kf_props_set|apply kf_ret].
Qed.
Lemma kf_mark_shape a : keeps_flags (mark_shape n rec a).
Proof.
  apply kf_rd. intros b. destruct (b_shape b) as [[]|]; try apply kf_ret.
  - destruct (a_items f); [|apply kf_ret]. apply kf_bind; auto.
    intros [x|]; [apply kf_upd_arr|apply kf_ret].
  - apply kf_bind; [|intros _]; [destruct (o_props f)|destruct (o_pprops f)];
      cbn [mark_optmap]; auto using kf_ret, kf_mark_map.
  - apply kf_loop_slice. intros k p. apply kf_bind; auto.
    intros [x|]; [apply kf_slice_set|apply kf_ret].
Qed.
End KfParts.

Lemma mark_flags n : forall a, keeps_flags (mark n a).
Proof.
  induction n as [|n IH]; intros a; cbn [mark]; [apply kf_none; discriminate|].
  intros s r s' H. apply rd_run in H. destruct H as [(b & G & H)|[H _]]; [|discriminate].
  destruct (negb (b_unwrapped b)); [discriminate|].
  destruct (b_visited b) eqn:V.
  { revert H. apply kf_bind; [apply kf_make_recursive|intros x; apply kf_ret]. }
  rewrite (bind_ok _ _ _ _ _ (set_visited_run a true s b G)) in H.
  apply bind_run in H. destruct H as [([] & s2 & H2 & H)|(U & _)]; [|exfalso; eapply U; reflexivity].
  pose proof (kf_mark_shape n _ IH _ _ _ _ H2) as F2.
  apply bind_run in H. destruct H as [([] & s3 & H3 & H)|(U & _)]; [|exfalso; eapply U; reflexivity].
  apply rd_run in H. destruct H as [(b' & G' & H)|[H _]]; [|discriminate].
  assert (F3 : flags_eq s s3).
  { intros x. apply rd_run in H3. destruct H3 as [(b2 & G2 & H3)|[H3 _]]; [|discriminate].
    injection H3 as <-. simpl. rewrite (flag_upd_base _ _ _ _ _ G2).
    destruct (Nat.eqb_spec a x) as [<-|D].
    - unfold flag. rewrite G, V. destruct b2; reflexivity.
    - rewrite F2. simpl. rewrite (flag_upd_base _ _ _ _ _ G).
      destruct (Nat.eqb_spec a x); [contradiction|reflexivity]. }
  eapply flags_trans; [exact F3|].
  revert H. apply kf_bind; [apply kf_mark_map; exact IH|intros _; apply kf_ret].
Qed.

(** * All roots *)

Lemma mark_unvisited n a s q s' : flag (heap s) a = false -> mark n a s = (Ok q, s') -> q = None.
Proof.
  destruct n as [|n]; [discriminate|]. intros F H. cbn [mark] in H.
  apply rd_run in H. destruct H as [(b & G & H)|[H _]]; [|discriminate].
  unfold flag in F. rewrite G in F. destruct (negb (b_unwrapped b)); [discriminate|]. rewrite F in H.
  do 3 (apply bind_run in H; destruct H as [([] & ? & _ & H)|(U & _)]; [|exfalso; eapply U; reflexivity]).
  apply rd_run in H. destruct H as [(b' & G' & H)|[H _]]; [|discriminate].
  apply bind_run in H; destruct H as [([] & ? & _ & H)|(U & _)]; [|exfalso; eapply U; reflexivity].
  now injection H.
Qed.

Lemma mark_all_good n : forall l s q s', maps_keyed (heap s) -> mark_all n l s = (q, s') ->
  moved s s' /\ (q = Ok tt -> (forall x, flag (heap s) x = false) -> 
     (forall x, flag (heap s') x = false) /\ forall a, In a l -> ends (heap s') a).
Proof.
  induction l as [|a l IH]; intros s q s' K H; cbn [mark_all] in H.
  { injection H as <- <-. split; [now apply moved_refl|]. intros _ F. split; auto. intros a []. }
  apply bind_run in H. destruct H as [(o & s1 & H1 & H)|(U & r & H1 & _)].
  2:{ destruct (mark_good n _ _ _ _ K H1) as [M1 _]. split; auto. intros ->. exfalso. eapply U; reflexivity. }
  destruct (mark_good n _ _ _ _ K H1) as [M1 E1]. pose proof M1 as [K1 _].
  destruct (IH _ _ _ K1 H) as [M2 E2]. split; [eapply moved_trans; eauto|].
  intros -> F. pose proof (mark_flags n a _ _ _ H1) as F1.
  assert (F1' : forall x, flag (heap s1) x = false) by (intros x; rewrite F1; auto).
  destruct (E2 eq_refl F1') as [F2 E2']. split; auto.
  intros x [<-|I]; auto.
  assert (o = None) by (eapply mark_unvisited; eauto). subst o. simpl in E1.
  destruct M2 as (_ & k & R). eapply ends_redir; eauto.
Qed.

Lemma mark_all_terminates s : facets_flat (heap s) -> fdefs_ok (heap s) -> maps_keyed (heap s) ->
  exists N, forall n l, N <= n -> fst (mark_all n l s) <> OutOfFuel.
Proof.
  intros A B C. destruct (bounded_lens (heap s)) as [L D].
  exists (2 * unv (heap s) + L + 3). intros n l Hn.
  assert (Iv : inv L (heap s)) by (constructor; auto).
  assert (R : forall l s1, inv L (heap s1) -> unv (heap s1) <= unv (heap s) -> fst (mark_all n l s1) <> OutOfFuel).
  { clear l. induction l as [|a l IH]; intros s1 I1 U1; cbn [mark_all]; [discriminate|].
    assert (R : returns_at (mark n a) s1).
    { apply mark_returns with (L := L); auto; [lia|]. intros b _. split; [lia|right; lia]. }
    destruct (mark n a s1) as [r s2] eqn:E. destruct (R _ _ E) as [NF V].
    unfold bind. rewrite E. destruct r as [o| | |]; try discriminate; [|congruence].
    specialize (V _ eq_refl). destruct I1 as [I1 I2 I3 I4].
    destruct (mark_good n _ _ _ _ I3 E) as [(K2 & k & R2) _]. apply IH.
    - exact (inv_redir L k _ _ (Build_inv L _ I1 I2 I3 I4) R2 K2).
    - pose proof (unv_redir _ _ _ R2 V). lia. }
  now apply R.
Qed.
