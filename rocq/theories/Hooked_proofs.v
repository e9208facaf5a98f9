(** Hooks that only look and object: what they can change. *)
From Coq Require Import ZArith List String Bool.
From Verif Require Import Base Scalars Heap Validate Names Rdt Resolve Yaml Pipeline Decode Parse Hooked.
Import ListNotations.
Open Scope string_scope.
Open Scope list_scope.
Open Scope nat_scope.

Section Hooked.
Variable H : hooks.

(** No hook ever objects. *)
Let silent := forall e s, H e s = false.
(** No hook objects to an inheritance. *)
Definition quiet := forall s x st,
  H (BeforeInherit s x) st = false /\ H (BeforeInheritUnionSource s x) st = false /\ H (BeforeInheritUnionTarget s x) st = false.

(** [m'] is [m] with hooks: the same when they are silent; the same result and
    state when it succeeds with a result that is [g]. *)
Definition rel {S A} (g : A -> bool) (m' m : S -> res A * S) : Prop :=
  forall s, (silent -> m' s = m s) /\ (forall r s', m' s = (Ok r, s') -> g r = true -> m s = (Ok r, s')).

Definition all {A} : A -> bool := fun _ => true.
Definition isome {A} (o : option A) : bool := match o with Some _ => true | None => false end.

Lemma rel_refl {S A} (g : A -> bool) (m : S -> res A * S) : rel g m m.
Proof. split; auto. Qed.

Lemma rel_eq {S A} (g : A -> bool) (m' m : S -> res A * S) : (forall s, m' s = m s) -> rel g m' m.
Proof. intros E s. rewrite E. split; auto. Qed.

Lemma rel_weak {S A} (g g' : A -> bool) (m' m : S -> res A * S) : (forall r, g' r = true -> g r = true) -> rel g m' m -> rel g' m' m.
Proof. intros G R s. destruct (R s) as [A1 A2]. split; [exact A1|]. intros r s' E K. exact (A2 r s' E (G r K)). Qed.

Lemma rel_all {S A} (g : A -> bool) (m' m : S -> res A * S) : rel all m' m -> rel g m' m.
Proof. apply rel_weak. reflexivity. Qed.

(** * The heap monad *)

Lemma rel_bindg {A B} (g1 : A -> bool) (g2 : B -> bool) (m' m : M A) (k' k : A -> M B) :
  rel g1 m' m -> (forall x, rel g2 (k' x) (k x)) ->
  (forall x s r s', g1 x = false -> k' x s = (Ok r, s') -> g2 r = false) ->
  rel g2 (bind m' k') (bind m k).
Proof.
  intros R K N s. destruct (R s) as [R1 R2]. unfold bind. split.
  - intros Q. rewrite (R1 Q). destruct (m s) as [[x| | |] s1]; try reflexivity. exact (proj1 (K x s1) Q).
  - intros r s'. destruct (m' s) as [[x| | |] s1] eqn:Em; try discriminate. intros E G.
    destruct (g1 x) eqn:Gx.
    + rewrite (R2 x s1 eq_refl Gx). exact (proj2 (K x s1) r s' E G).
    + rewrite (N x s1 r s' Gx E) in G. discriminate.
Qed.

Lemma rel_bind {A B} (g : B -> bool) (m' m : M A) (k' k : A -> M B) :
  rel all m' m -> (forall x, rel g (k' x) (k x)) -> rel g (bind m' k') (bind m k).
Proof. intros R K. apply (rel_bindg all); auto. intros x s r s' X. discriminate X. Qed.

Lemma rel_ask {A} (g : A -> bool) e (k' k : M A) : rel g k' k -> rel g (bind (ask H e) (fun _ => k')) k.
Proof.
  intros R s. unfold bind, ask. destruct (R s) as [R1 R2]. split.
  - intros Q. rewrite (Q e s). exact (R1 Q).
  - destruct (H e s); [discriminate|]. exact R2.
Qed.

Lemma rel_try {A} (m' m : M A) : rel all m' m -> rel isome (try m') (try m).
Proof.
  intros R s. destruct (R s) as [R1 R2]. unfold try. split.
  - intros Q. rewrite (R1 Q). reflexivity.
  - intros r s'. destruct (m' s) as [[x| | |] s1] eqn:Em; try discriminate.
    + intros E _. rewrite (R2 x s1 eq_refl eq_refl). exact E.
    + intros E. injection E as <- <-. discriminate.
Qed.

Lemma rel_loop_props n : forall m i (b' b : string -> prop -> M unit),
  (forall k p, rel all (b' k p) (b k p)) -> rel all (loop_props n m i b') (loop_props n m i b).
Proof.
  induction n as [|n IH]; intros m i b' b K; simpl; [apply rel_refl|].
  apply rel_bind; [apply rel_refl|]. intros l. destruct (nth_error l i) as [[k p]|]; [|apply rel_refl].
  apply rel_bind; [apply K|]. intros _. apply IH. exact K.
Qed.

Lemma rel_loop_slice n : forall m i (b' b : nat -> addr -> M unit),
  (forall k p, rel all (b' k p) (b k p)) -> rel all (loop_slice n m i b') (loop_slice n m i b).
Proof.
  induction n as [|n IH]; intros m i b' b K; simpl; [apply rel_refl|].
  apply rel_bind; [apply rel_refl|]. intros l. destruct (nth_error l i) as [p|]; [|apply rel_refl].
  apply rel_bind; [apply K|]. intros _. apply IH. exact K.
Qed.

Ltac same := match goal with |- rel _ ?x ?y => constr_eq x y; apply rel_refl end.
Ltac go := repeat (first
  [ same
  | assumption
  | match goal with
    | K : forall x, rel _ (_ x) (_ x) |- _ => apply K
    | K : forall x y, rel _ (_ x y) (_ x y) |- _ => apply K
    | K : forall x y z, rel _ (_ x y z) (_ x y z) |- _ => apply K
    end
  | match goal with |- rel _ (bind (ask _ _) _) _ => apply rel_ask end
  | match goal with |- rel _ (bind _ _) (bind _ _) => apply rel_bind; [|intros ?] end
  | match goal with |- rel _ (loop_props _ _ _ _) _ => apply rel_loop_props; intros ? ? end
  | match goal with |- rel _ (loop_slice _ _ _ _) _ => apply rel_loop_slice; intros ? ? end
  | match goal with |- rel _ (match ?x with _ => _ end) _ => destruct x end ]).

(** * Inheritance, when no hook objects to it *)

Lemma bind_ext {A B} (m' m : M A) (k' k : A -> M B) s :
  (forall s, m' s = m s) -> (forall x s, k' x s = k x s) -> bind m' k' s = bind m k s.
Proof. intros E K. unfold bind. rewrite E. destruct (m s) as [[x| | |] s1]; auto. Qed.

Lemma try_ext {A} (m' m : M A) s : (forall s, m' s = m s) -> try m' s = try m s.
Proof. intros E. unfold try. rewrite E. reflexivity. Qed.

Lemma loop_props_ext n : forall m i (b' b : string -> prop -> M unit) s,
  (forall k p s, b' k p s = b k p s) -> loop_props n m i b' s = loop_props n m i b s.
Proof.
  induction n as [|n IH]; intros m i b' b s K; simpl; [reflexivity|].
  apply bind_ext; [reflexivity|]. intros l s1. destruct (nth_error l i) as [[k p]|]; [|reflexivity].
  apply bind_ext; [apply K|]. intros _ s2. apply IH. exact K.
Qed.

Ltac ext := repeat (first
  [ reflexivity
  | match goal with K : forall x y s, _ x y s = _ x y s |- _ => apply K end
  | match goal with |- bind _ _ _ = bind _ _ _ => apply bind_ext; [intros ?|intros ? ?] end
  | match goal with |- try _ _ = _ => apply try_ext; intros ? end
  | match goal with |- loop_props _ _ _ _ _ = _ => apply loop_props_ext; intros ? ? ? end
  | match goal with |- (match ?x with _ => _ end) _ = _ => destruct x end ]).

Section Ext.
Variable n : nat.
Variables r' r : addr -> addr -> M addr.
Hypothesis RR : forall x y s, r' x y s = r x y s.

Lemma ext_array t src tf sf s : inherit_array r' t src tf sf s = inherit_array r t src tf sf s.
Proof. unfold inherit_array. ext. Qed.
Lemma ext_map a b s : inherit_map n r' a b s = inherit_map n r a b s.
Proof. unfold inherit_map. ext. Qed.
Lemma ext_object t src tf sf s : inherit_object n r' t src tf sf s = inherit_object n r t src tf sf s.
Proof.
  unfold inherit_object, inherit_props, inherit_pprops. ext; apply ext_map.
Qed.
Lemma ext_inner sm ty tl : forall s, union_inner n r' sm ty tl s = union_inner n r sm ty tl s.
Proof. induction tl as [|x tl IH]; intros s; simpl; [reflexivity|]. ext. apply IH. Qed.
Lemma ext_outer tsl sl : forall s, union_outer n r' tsl sl s = union_outer n r tsl sl s.
Proof. induction sl as [|x sl IH]; intros s; simpl; [reflexivity|]. ext; [apply ext_inner|apply IH]. Qed.
Lemma ext_shape t src a b s : inherit_shape n r' t src a b s = inherit_shape n r t src a b s.
Proof.
  destruct a, b; simpl; try reflexivity; try apply ext_array; try apply ext_object.
  - ext. apply ext_object.
  - unfold inherit_union. ext. apply ext_outer.
Qed.
Lemma ext_source a ms : forall s, union_source n r' a ms s = union_source n r a ms s.
Proof. induction ms as [|x ms IH]; intros s; simpl; [reflexivity|]. ext; apply IH. Qed.
Lemma ext_target a sl : forall k i g s, union_target r' k a sl i g s = union_target r k a sl i g s.
Proof. induction k as [|k IH]; intros i g s; simpl; [reflexivity|]. ext; apply IH. Qed.
Lemma ext_body (Q : quiet) a b s : inherit_body_h H n r' a b s = inherit_body n r a b s.
Proof.
  assert (K : forall A (k' k : M A) e x y, e = BeforeInherit x y \/ e = BeforeInheritUnionSource x y \/ e = BeforeInheritUnionTarget x y ->
            (forall s, k' s = k s) -> forall s, bind (ask H e) (fun _ => k') s = k s).
  { intros A k' k e x y D E s0. destruct (Q x y s0) as (Q1 & Q2 & Q3). unfold bind, ask.
    destruct D as [-> | [-> | ->]]; rewrite ?Q1, ?Q2, ?Q3; apply E. }
  unfold inherit_body_h. eapply K; [left; reflexivity|]. clear s. intros s. unfold inherit_body.
  apply bind_ext; [reflexivity|]. intros sb s1. destruct (b_visited sb); [reflexivity|].
  do 6 (apply bind_ext; [ext|]; intros ? ?).
  set (tsh := b_shape _). clearbody tsh. 
  destruct (b_shape sb) as [ssh|] eqn:Es; [|destruct tsh as [[]|]; reflexivity].
  assert (S0 : forall sa s, bind (ask H (BeforeInheritUnionSource a sa)) (fun _ => inherit_union_source n r' a sa) s = inherit_union_source n r a sa s).
  { intros sa. eapply K; [right; left; reflexivity|]. intros ?. unfold inherit_union_source. ext. apply ext_source. }
  assert (T0 : forall ta s, bind (ask H (BeforeInheritUnionTarget a ta)) (fun _ => good <- union_target r' n a ta 0 true ;; if good then ret a else fail)%M s
             = bind (union_target r n a ta 0 true) (fun good => if good then ret a else fail) s).
  { intros ta. eapply K; [right; right; reflexivity|]. intros ?. ext. apply ext_target. }
  destruct tsh as [tsh|], ssh; try reflexivity; try apply S0; destruct tsh; try apply S0; try apply T0; apply bind_ext; try (intros; apply ext_shape); intros; reflexivity.
Qed.
End Ext.

Lemma inherit_same (Q : quiet) n : forall a b s, inherit_h H n a b s = inherit n a b s.
Proof.
  induction n as [|n IH]; intros a b s; simpl; [reflexivity|]. apply ext_body; assumption.
Qed.

Lemma silent_quiet : silent -> quiet.
Proof. intros S a b s. auto. Qed.

(** * Unwrapping and marking *)

Section Unwrap.
Hypothesis Q : quiet.

Lemma rel_inherit n a b : rel all (inherit_h H n a b) (inherit n a b).
Proof. apply rel_eq. exact (inherit_same Q n a b). Qed.

Lemma rel_more n (r' r : addr -> M addr) (R : forall a, rel all (r' a) (r a)) : forall k sl ss i,
  rel all (unwrap_more_parents r' k (inherit_h H n) sl ss i) (unwrap_more_parents r k (inherit n) sl ss i).
Proof.
  induction k as [|k IH]; intros sl ss i; simpl; [apply rel_refl|]. go. apply rel_inherit.
Qed.

Lemma rel_unwrap n : forall a, rel all (unwrap_h H n a) (unwrap n a).
Proof.
  induction n as [|n IH]; intros a; simpl; [apply rel_refl|]. apply rel_ask.
  apply rel_bind; [apply rel_refl|]. intros b. destruct (b_shape b); [|apply rel_refl].
  destruct (b_unwrapped b); [apply rel_refl|]. apply rel_bind; [apply rel_refl|]. intros _.
  destruct (b_alias b) as [al|].
  - apply rel_bind; [apply IH|]. intros us. apply rel_refl.
  - apply rel_bind.
    { unfold unwrap_parents. go. apply rel_more. exact IH. }
    intros src. apply rel_bind.
    { unfold unwrap_target, unwrap_optmap, unwrap_map. go. }
    intros _. apply rel_bind.
    { unfold unwrap_fdefs. go. }
    intros _. apply rel_bind; [|intros ?; apply rel_refl]. destruct src; [apply rel_inherit|apply rel_refl].
Qed.

Lemma rel_mark n : forall a, rel all (mark_h H n a) (mark n a).
Proof.
  induction n as [|n IH]; intros a; simpl; [apply rel_refl|]. apply rel_ask.
  go; unfold mark_shape, mark_optmap, mark_map; go.
Qed.

Lemma rel_mark_all n l : rel all (mark_all_h H n l) (mark_all n l).
Proof. induction l as [|a l IH]; simpl; [apply rel_refl|]. apply rel_bind; [apply rel_mark|]. intros _. exact IH. Qed.

Lemma rel_mark_fragments n order L fs : rel all (mark_fragments_h H n order L fs) (mark_fragments n order L fs).
Proof.
  induction order as [|k order IH]; simpl; [apply rel_refl|]. destruct (oget k fs) as [f|]; [|exact IH].
  apply rel_bind; [|intros _; exact IH]. unfold mark_fragment_h, mark_fragment. go; apply rel_mark_all.
Qed.

Definition ok3 {A B} (x : bool * A * B) : bool := fst (fst x).

Lemma rel_unwrap_types n loc : forall l i, rel ok3 (unwrap_types_h H n loc l i) (unwrap_types n loc l i).
Proof.
  induction l as [|[k a] l IH]; intros i; simpl; [apply rel_refl|].
  apply (rel_bindg isome); [apply rel_try, rel_unwrap| |].
  - intros [us|].
    + apply rel_bind; [apply rel_refl|]. intros ub. apply (rel_bindg ok3); [apply IH| |].
      * intros [[ok l'] i']. apply rel_refl.
      * intros [[ok l'] i'] s r s' G E. injection E as <- <-. exact G.
    + apply (rel_bindg ok3); [apply IH| |].
      * intros [[ok l'] i']. apply rel_refl.
      * intros [[ok l'] i'] s r s' G E. injection E as <- <-. reflexivity.
  - intros [us|] s r s' G E; [discriminate|]. unfold bind in E.
    destruct (unwrap_types_h H n loc l i s) as [[[[ok l'] i']| | |] s1]; try discriminate. injection E as <- <-. reflexivity.
Qed.

Lemma rel_unwrap_fragment n loc f u : rel u_ok (unwrap_fragment_h H n loc f u) (unwrap_fragment n loc f u).
Proof.
  unfold unwrap_fragment_h, unwrap_fragment. destruct f as [l|uses [a|]|]; try apply rel_refl.
  - destruct (nth_error (u_libs u) l) as [lib|]; [|apply rel_refl].
    apply (rel_bindg ok3); [apply rel_unwrap_types| |].
    + intros x. apply (rel_bindg ok3); [apply rel_unwrap_types| |].
      * intros y. apply rel_refl.
      * intros [[ok' ty] it] s r s' G E. destruct x as [[ok an] ia]. injection E as <- <-. simpl in *. unfold ok3 in G. simpl in G. subst ok'. apply andb_false_r.
    + intros [[ok an] ia] s r s' G E. unfold ok3 in G. simpl in G. subst ok. unfold bind in E.
      destruct (unwrap_types_h H n loc (l_types lib) (u_types u) s) as [[[[ok' ty] it]| | |] s1]; try discriminate. injection E as <- <-. simpl. rewrite andb_false_r. reflexivity.
  - apply (rel_bindg isome); [apply rel_try, rel_unwrap| |].
    + intros [us|]; apply rel_refl.
    + intros [us|] s r s' G E; [discriminate|]. injection E as <- <-. reflexivity.
Qed.

Lemma unwrap_fragment_false n loc f u s u' s' :
  u_ok u = false -> unwrap_fragment_h H n loc f u s = (Ok u', s') -> u_ok u' = false.
Proof.
  intros G E. unfold unwrap_fragment_h in E. destruct f as [l|uses [a|]|].
  - destruct (nth_error (u_libs u) l) as [lib|]; [|discriminate]. unfold bind in E.
    destruct (unwrap_types_h H n loc (l_annots lib) (u_annots u) s) as [[[[ok an] ia]| | |] s1]; try discriminate.
    destruct (unwrap_types_h H n loc (l_types lib) (u_types u) s1) as [[[[ok' ty] it]| | |] s2]; try discriminate.
    injection E as <- <-. simpl. rewrite G. reflexivity.
  - unfold bind in E. destruct (try (unwrap_h H n a) s) as [[[us|]| | |] s1]; try discriminate.
    + destruct (relink a us s1) as [[y| | |] s2]; try discriminate.
      destruct (rd get_base us s2) as [[ub| | |] s3]; try discriminate. injection E as <- <-. exact G.
    + injection E as <- <-. reflexivity.
  - injection E as <- <-. reflexivity.
  - injection E as <- <-. exact G.
Qed.

Lemma unwrap_fragments_false n : forall order u s u' s',
  u_ok u = false -> unwrap_fragments_h H n order u s = (Ok u', s') -> u_ok u' = false.
Proof.
  induction order as [|k order IH]; intros u s u' s' G E; simpl in E.
  - injection E as <- <-. exact G.
  - destruct (oget k (u_frags u)) as [f|]; [|exact (IH _ _ _ _ G E)]. unfold bind in E.
    destruct (unwrap_fragment_h H n k f u s) as [[u1| | |] s1] eqn:E1; try discriminate.
    exact (IH _ _ _ _ (unwrap_fragment_false _ _ _ _ _ _ _ G E1) E).
Qed.

Lemma rel_unwrap_fragments n : forall order u, rel u_ok (unwrap_fragments_h H n order u) (unwrap_fragments n order u).
Proof.
  induction order as [|k order IH]; intros u; simpl; [apply rel_refl|]. destruct (oget k (u_frags u)) as [f|]; [|apply IH].
  apply (rel_bindg u_ok); [apply rel_unwrap_fragment|exact IH|].
  intros x s r s' G E. exact (unwrap_fragments_false _ _ _ _ _ _ G E).
Qed.

Lemma rel_unwrap_shapes n o1 o2 R : rel all (unwrap_shapes_h H n o1 o2 R) (unwrap_shapes n o1 o2 R).
Proof.
  unfold unwrap_shapes_h, unwrap_shapes. apply rel_bind; [apply rel_refl|]. intros _.
  apply (rel_bindg u_ok); [apply rel_unwrap_fragments| |].
  - intros u. destruct (negb (u_ok u)); [apply rel_refl|]. apply rel_bind; [apply rel_mark_fragments|]. intros _. apply rel_refl.
  - intros u s r s' G E. rewrite G in E. discriminate.
Qed.

(** * Validation *)

Lemma check_all_ok (r' r : addr -> res unit) : (forall a, r' a = Ok tt -> r a = Ok tt) -> forall l, check_all r' l = Ok tt -> check_all r l = Ok tt.
Proof.
  intros K. induction l as [|a l IH]; simpl; [auto|]. destruct (r' a) as [[]| | |] eqn:Ea; simpl; try discriminate.
  rewrite (K a Ea). simpl. exact IH.
Qed.

Lemma check_all_ext (r' r : addr -> res unit) : (forall a, r' a = r a) -> forall l, check_all r' l = check_all r l.
Proof. intros K. induction l as [|a l IH]; simpl; [auto|]. rewrite K, IH. reflexivity. Qed.

Lemma asked_ok e s : asked H e s = Ok tt <-> H e s = false.
Proof. unfold asked. destruct (H e s); split; auto; discriminate. Qed.

Lemma rbind_ok {A} (x : res A) (k : A -> res unit) : rbind x k = Ok tt -> exists a, x = Ok a /\ k a = Ok tt.
Proof. destruct x; simpl; try discriminate. eauto. Qed.

Lemma rbind_ext {A B} (x x' : res A) (k k' : A -> res B) : x = x' -> (forall a, k a = k' a) -> rbind x k = rbind x' k'.
Proof. intros <- K. destruct x; simpl; auto. Qed.

Lemma commons_silent (Sl : silent) n O s : forall a, commons_h H n O s a = commons n O (heap s) a.
Proof.
  induction n as [|n IH]; intros a; [reflexivity|].
  cbn [commons_h commons]. unfold asked. rewrite Sl. cbn [rbind]. destruct (get_base (heap s) a) as [b|]; [|reflexivity].
  rewrite Sl. cbn [rbind]. apply rbind_ext; [reflexivity|]. intros _.
  rewrite Sl. cbn [rbind]. apply rbind_ext; [reflexivity|]. intros _.
  apply rbind_ext.
  - destruct (b_shape b) as [[]|]; try reflexivity.
    + destruct (a_items _); [apply IH|reflexivity].
    + rewrite Sl. cbn [rbind]. destruct (opt_props (heap s) (o_props f)), (opt_props (heap s) (o_pprops f)); try reflexivity.
      apply rbind_ext; [apply check_all_ext, IH|]. intros _. apply check_all_ext, IH.
    + destruct (get_slice (heap s) _); [apply check_all_ext, IH|reflexivity].
  - intros _. destruct (get_props (heap s) (b_fdefs b)); [apply check_all_ext, IH|reflexivity].
Qed.

Ltac next E := let x := fresh in apply rbind_ok in E; destruct E as [x [? E]].

Lemma commons_ok n O s : forall a, commons_h H n O s a = Ok tt -> commons n O (heap s) a = Ok tt.
Proof.
  induction n as [|n IH]; intros a E; [discriminate|].
  cbn [commons_h] in E. cbn [commons]. next E. destruct (get_base (heap s) a) as [b|]; [|discriminate].
  next E. apply rbind_ok in E. destruct E as [[] [-> E]]. next E. apply rbind_ok in E. destruct E as [[] [-> E]]. cbn [rbind].
  apply rbind_ok in E. destruct E as [[] [E1 E2]].
  assert (E3 : match b_shape b with
                 | Some (SObject f) =>
                     match opt_props (heap s) (o_props f), opt_props (heap s) (o_pprops f) with
                     | Some ps, Some pps =>
                         rbind (check_all (commons n O (heap s)) (bases ps)) (fun _ =>
                         check_all (commons n O (heap s)) (bases pps))
                     | _, _ => Panic
                     end
                 | Some (SArray f) =>
                     match a_items f with Some i => commons n O (heap s) i | None => Ok tt end
                 | Some (SUnion sl _) =>
                     match get_slice (heap s) sl with
                     | Some l => check_all (commons n O (heap s)) l
                     | None => Panic
                     end
                 | _ => Ok tt
                 end = Ok tt).
  { destruct (b_shape b) as [[]|]; try reflexivity.
    + destruct (a_items _); [apply IH; exact E1|reflexivity].
    + next E1. destruct (opt_props (heap s) (o_props f)), (opt_props (heap s) (o_pprops f)); try discriminate.
      apply rbind_ok in E1. destruct E1 as [[] [E1 E3]]. rewrite (check_all_ok _ _ IH _ E1). simpl. exact (check_all_ok _ _ IH _ E3).
    + destruct (get_slice (heap s) _); [exact (check_all_ok _ _ IH _ E1)|discriminate]. }
  rewrite E3. cbn [rbind]. destruct (get_props (heap s) (b_fdefs b)); [exact (check_all_ok _ _ IH _ E2)|discriminate].
Qed.

Lemma rel_check_type n O a : rel all (check_type_h H n O a) (check_type n O a).
Proof.
  intros s. unfold check_type_h, check_type. split.
  - intros Sl. destruct (check n O (heap s) a); try reflexivity. rewrite (commons_silent Sl). reflexivity.
  - intros r s' E _. destruct (check n O (heap s) a) as [[]| | |]; try discriminate.
    injection E as E <-. destruct r. rewrite (commons_ok _ _ _ _ E). reflexivity.
Qed.

Definition ok2 {A} (x : bool * A) : bool := fst x.

Lemma rel_val_unwrap n a c : rel all (val_unwrap_h H n a c) (val_unwrap n a c).
Proof.
  unfold val_unwrap_h, val_unwrap. go; [apply rel_unwrap|apply rel_mark].
Qed.

Lemma rel_validate_type n O a c : rel ok2 (validate_type_h H n O a c) (validate_type n O a c).
Proof.
  unfold validate_type_h, validate_type. apply (rel_bindg isome); [apply rel_try, rel_val_unwrap| |].
  - intros [[us c']|]; [|apply rel_refl]. apply (rel_bindg isome); [apply rel_try, rel_check_type| |].
    + intros k. apply rel_refl.
    + intros [k|] s r s' G E; [discriminate|]. injection E as <- <-. reflexivity.
  - intros [k|] s r s' G E; [discriminate|]. injection E as <- <-. reflexivity.
Qed.

Lemma rel_seq2 {A} (m' m : M (bool * A)) (k' k : A -> M (bool * A)) :
  rel ok2 m' m -> (forall c, rel ok2 (k' c) (k c)) ->
  rel ok2 (r <- m' ;; r' <- k' (snd r) ;; ret (fst r && fst r', snd r'))%M
          (r <- m ;; r' <- k (snd r) ;; ret (fst r && fst r', snd r'))%M.
Proof.
  intros R K. apply (rel_bindg ok2); [exact R| |].
  - intros [b c]. apply (rel_bindg ok2); [apply K| |].
    + intros x. apply rel_refl.
    + intros [b' c'] s r s' G E. injection E as <- <-. unfold ok2 in *. simpl in *. subst b'. apply andb_false_r.
  - intros [b c] s r s' G E. unfold ok2 in *. simpl in G. subst b. unfold bind in E. simpl in E.
    destruct (k' c s) as [[[b' c']| | |] s1]; try discriminate. injection E as <- <-. reflexivity.
Qed.

Lemma rel_validate_each n O : forall l c, rel ok2 (validate_each_h H n O l c) (validate_types n O l c).
Proof.
  induction l as [|[k a] l IH]; intros c; simpl; [apply rel_refl|]. apply rel_seq2; [apply rel_validate_type|exact IH].
Qed.

Lemma rel_asking e c (m' m : M (bool * cache)) : rel ok2 m' m -> rel ok2 (asking H e c m') m.
Proof.
  intros R s. destruct (R s) as [R1 R2]. unfold asking, bind, try, ask. split.
  - intros Sl. rewrite (Sl e s). exact (R1 Sl).
  - destruct (H e s); [|exact R2]. intros r s' E. injection E as <- <-. discriminate.
Qed.

Lemma rel_validate_types n O l c : rel ok2 (validate_types_h H n O l c) (validate_types n O l c).
Proof. apply rel_asking, rel_validate_each. Qed.

Lemma rel_validate_fragment n O L f c : rel ok2 (validate_fragment_h H n O L f c) (validate_fragment n O L f c).
Proof.
  unfold validate_fragment_h, validate_fragment. destruct f as [l|uses [a|]|]; try apply rel_refl.
  - destruct (nth_error L l); [|apply rel_refl]. apply rel_asking. unfold validate_library.
    apply rel_seq2; [apply rel_validate_types|]. intros. apply rel_validate_types.
  - apply rel_asking, rel_validate_type.
  - apply rel_asking, rel_refl.
Qed.

Lemma rel_fragments_each n O R : forall order c, rel ok2 (fragments_each_h H n O R order c) (validate_fragments n O R order c).
Proof.
  induction order as [|k order IH]; intros c; simpl; [apply rel_refl|]. destruct (oget k (r_frags R)); [|apply IH].
  apply rel_seq2; [apply rel_validate_fragment|exact IH].
Qed.

Lemma rel_validate_exts n O l c : rel (fun b => b) (validate_exts_h H n O l c) (validate_exts n O l c).
Proof.
  intros s. unfold validate_exts_h, bind, try, ask. split.
  - intros Sl. rewrite Sl. reflexivity.
  - destruct (H _ s); [|auto]. intros r s' E. injection E as <- <-. discriminate.
Qed.

Lemma rel_validate_shapes n O order R : rel all (validate_shapes_h H n O order R) (validate_shapes n O order R).
Proof.
  unfold validate_shapes_h, validate_shapes. apply rel_ask.
  apply (rel_bindg ok2); [apply rel_asking, rel_fragments_each| |].
  - intros [b c]. apply (rel_bindg (fun b => b)); [apply rel_validate_exts| |].
    + intros ok. apply rel_refl.
    + intros ok s r s' -> E. simpl in E. rewrite andb_false_r in E. discriminate.
  - intros [b c] s r s' G E. unfold ok2 in G. simpl in G. subst b. unfold bind in E.
    destruct (validate_exts_h H n O (r_exts R) (snd (false, c)) s) as [[ok| | |] s1]; discriminate.
Qed.
End Unwrap.
End Hooked.
