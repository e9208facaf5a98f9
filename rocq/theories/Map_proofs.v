(** Proofs about Map (C38). *)
From Coq Require Import ZArith List String Bool Lia.
From Verif Require Import Base Heap Schema Spec_Schema Spec_Map.
Import ListNotations.
Open Scope string_scope.
Open Scope list_scope.
Open Scope nat_scope.

(** Induction over the schemas below. *)
Fixpoint depth (s : schema) : nat :=
  match s with
  | Null => 0
  | Sch _ d al an on nt it th el its ps pps pn _ fd _ =>
      let named l := list_sum (map (fun kv => depth (snd kv)) l) in
      S (named d + list_sum (map depth al) + list_sum (map depth an) + list_sum (map depth on) + depth nt + depth it + depth th
         + depth el + depth its + depth pn + (match ps with Some l => named l | None => 0 end) + (match pps with Some l => named l | None => 0 end)
         + (match fd with Some l => named l | None => 0 end))
  end.
Lemma sum_in l x : In x l -> x <= list_sum l.
Proof. induction l as [|y l IH]; intros []; simpl; [lia|]. specialize (IH H). lia. Qed.
Lemma depth_below s t : In t (below_schema s) -> depth t < depth s.
Proof.
  destruct s as [|k d al an on nt it th el its ps pps pn ann fd fx]; [intros []|]. unfold below_schema. rewrite !in_app_iff.
  assert (L : forall l : list schema, In t l -> depth t <= list_sum (map depth l)) by (intros; now apply sum_in, in_map).
  assert (N : forall l : list (string * schema), In t (map snd l) -> depth t <= list_sum (map (fun kv => depth (snd kv)) l)).
  { intros l I. apply in_map_iff in I. destruct I as (kv & <- & I). apply sum_in. now apply in_map with (f := fun kv => depth (snd kv)). }
  assert (E : forall o : option (list (string * schema)), In t (map snd (entries o)) ->
    depth t <= match o with Some l => list_sum (map (fun kv => depth (snd kv)) l) | None => 0 end).
  { intros [l|]; simpl; auto. intros []. }
  intros [H|[H|[H|[H|[H|[H|[H|H]]]]]]].
  5: { apply L in H. simpl in H. cbn [depth]. lia. }
  1: apply N in H. 2-4: apply L in H. 5-7: apply E in H. all: cbn [depth]; lia.
Qed.
Lemma below_ind (P : schema -> Prop) : (forall s, (forall t, In t (below_schema s) -> P t) -> P s) -> forall s, P s.
Proof.
  intros H s. remember (depth s) as n eqn:E. revert s E. induction n as [n IH] using lt_wf_ind. intros s ->.
  apply H. intros t I. eapply IH; [apply depth_below, I|reflexivity].
Qed.

(** * Map by the table *)
Definition render (f : field) : option jv :=
  match f with
  | FText x => if String.eqb x "" then None else Some (JStr x)
  | FNumber x => option_map JNum x
  | FCount x => option_map (fun z => JNum (NumZ z)) x
  | FFlag x => option_map JBool x
  | FValue GNil => None
  | FValue v => Some (JVal v)
  | FValues [] => None
  | FValues l => Some (JList (map JVal l))
  | FTexts [] => None
  | FTexts l => Some (JList (map JStr l))
  | FSchema s => smap s
  | FSchemas [] => None
  | FSchemas l => Some (JList (map (fun x => elem (smap x)) l))
  | FNamed [] => None
  | FNamed l => Some (JObj (map (fun kv => (fst kv, elem (smap (snd kv)))) l))
  | FData [] => None
  | FData l => Some (JObj (map (fun kv => (fst kv, JVal (snd kv))) l))
  end.
Definition put (e : string * field) : list (string * jv) := match render (snd e) with Some j => [(fst e, j)] | None => [] end.

Lemma smap_table s : s <> Null -> smap s = Some (JObj (flat_map put (vocabulary s))).
Proof.
  destruct s as [|k d al an on nt it th el its ps pps pn ann fd fx]; [congruence|]. intros _.
  assert (Es : forall k x, put_str k x = put (k, FText x)) by (intros; unfold put_str, put; simpl; destruct (x =? "")%string; auto).
  assert (En : forall k x, put_num k x = put (k, FNumber x)) by (intros ? []; reflexivity).
  assert (Eu : forall k x, put_uint k x = put (k, FCount x)) by (intros ? []; reflexivity).
  assert (Eb : forall k x, put_bool k x = put (k, FFlag x)) by (intros ? []; reflexivity).
  assert (Ea : forall k x, put_any k x = put (k, FValue x)) by (intros ? []; reflexivity).
  assert (E1 : forall k x, put_list k (fun l => JList (map JStr l)) x = put (k, FTexts x)) by (intros ? []; reflexivity).
  assert (E2 : forall k x, put_list k (fun l => JList (map JVal l)) x = put (k, FValues x)) by (intros ? []; reflexivity).
  assert (E3 : forall k x, put_list k (fun l => JList (map (fun x => elem (smap x)) l)) x = put (k, FSchemas x)) by (intros ? []; reflexivity).
  assert (E4 : forall k x, put_list k (fun l => JObj (map (fun kv => (fst kv, elem (smap (snd kv)))) l)) x = put (k, FNamed x))
    by (intros ? []; reflexivity).
  assert (E5 : forall k x, put_opt k (fun l => JList (map JVal l)) x = put (k, FValues (entries x))) by (intros ? [[]|]; reflexivity).
  assert (E6 : forall k x, put_opt k (fun l => JObj (map (fun kv => (fst kv, elem (smap (snd kv)))) l)) x = put (k, FNamed (entries x)))
    by (intros ? [[]|]; reflexivity).
  assert (E7 : forall k x, put_opt k (fun l => JObj (map (fun kv => (fst kv, JVal (snd kv))) l)) x = put (k, FData (entries x)))
    by (intros ? [[]|]; reflexivity).
  assert (E8 : forall k x, put_sub k (smap x) = put (k, FSchema x)) by (intros; reflexivity).
  cbn [smap]. rewrite !Es, !En, !Eu, !Eb, !Ea, !E1, !E2, !E3, !E4, !E5, !E6, !E7, !E8.
  unfold vocabulary. cbn [flat_map]. rewrite app_nil_r. reflexivity.
Qed.

Lemma vocabulary_apart s : NoDup (map fst (vocabulary s)).
Proof.
  destruct s; [constructor|]. cbn [vocabulary map fst].
  repeat (constructor; [cbn [In]; intros H; repeat (destruct H as [H|H]; [discriminate H|]); exact H|]). constructor.
Qed.

Lemma put_names t : forall n, In n (map fst (flat_map put t)) -> In n (map fst t).
Proof.
  induction t as [|[k f] t IH]; intros n; simpl; auto. rewrite map_app, in_app_iff. unfold put at 1. simpl.
  intros [H|H]; auto. destruct (render f); [destruct H as [H|[]]; auto|destruct H].
Qed.
Lemma put_apart t : NoDup (map fst t) -> NoDup (map fst (flat_map put t)).
Proof.
  induction t as [|[k f] t IH]; simpl; intros N; [constructor|]. inversion N; subst. unfold put at 1. simpl.
  destruct (render f); simpl; auto. constructor; auto. intros I. apply H1. now apply put_names.
Qed.

Lemma elem_smap t : elem (smap t) = match smap t with Some j => j | None => JVal GNil end.
Proof. reflexivity. Qed.
Lemma smap_some s : s <> Null -> exists j, smap s = Some j.
Proof. intros H. rewrite (smap_table s H). eauto. Qed.

Lemma render_unset f : render f = None <-> unset f.
Proof.
  destruct f as [x|x|x|x|x|x|x|x|x|x|x]; simpl; try (destruct x; simpl; split; congruence).
Qed.

Lemma render_rendered (R : schema -> jv -> Prop) f j : (forall t, (match f with FSchema s => t = s | FSchemas l => In t l | FNamed l => In t (map snd l) | _ => False end) -> R t (elem (smap t))) ->
  render f = Some j -> rendered R f j.
Proof.
  intros H E. destruct f as [x|x|x|x|x|x|x|x|x|x|x]; simpl in *.
  - destruct (String.eqb_spec x ""); [discriminate|]. injection E as <-. now constructor.
  - destruct x; [|discriminate]. injection E as <-. constructor.
  - destruct x; [|discriminate]. injection E as <-. constructor.
  - destruct x; [|discriminate]. injection E as <-. constructor.
  - destruct x; try discriminate; injection E as <-; constructor; discriminate.
  - destruct x; [discriminate|]. injection E as <-. apply (r_values R (g :: x)). discriminate.
  - destruct x; [discriminate|]. injection E as <-. apply (r_texts R (s :: x)). discriminate.
  - constructor; [intros ->; discriminate|]. specialize (H x eq_refl). now rewrite E in H.
  - destruct x as [|y x]; [discriminate|]. injection E as <-. apply (r_schemas R (y :: x) (map (fun x => elem (smap x)) (y :: x))); [discriminate|].
    revert H. generalize (y :: x). clear. induction l; intros H; simpl; constructor; auto. apply H. now left. apply IHl. intros t I. apply H. now right.
  - destruct x as [|y x]; [discriminate|]. injection E as <-. apply (r_named R (y :: x) (map (fun kv => (fst kv, elem (smap (snd kv)))) (y :: x))); [discriminate|].
    revert H. generalize (y :: x). clear. induction l; intros H; simpl; constructor; auto. split; auto. apply H. now left. apply IHl. intros t I. apply H. now right.
  - destruct x as [|y x]; [discriminate|]. injection E as <-. apply (r_data R (y :: x)). discriminate.
Qed.

Lemma field_below s n f t : In (n, f) (vocabulary s) ->
  (match f with FSchema s => t = s | FSchemas l => In t l | FNamed l => In t (map snd l) | _ => False end) -> In t (below_schema s).
Proof.
  destruct s as [|k d al an on nt it th el its ps pps pn ann fd fx]; [intros []|]. unfold below_schema. rewrite !in_app_iff.
  intros I H. cbn [vocabulary In] in I.
  repeat (destruct I as [I|I]; [injection I as <- <-; try contradiction; subst; simpl; tauto|]). destruct I.
Qed.

Theorem smap_document s : document s (elem (smap s)).
Proof.
  induction s as [s IH] using below_ind. destruct s as [|k d al an on nt it th el its ps pps pn ann fd fx]; [constructor|].
  set (s := Sch k d al an on nt it th el its ps pps pn ann fd fx) in *. assert (Ns : s <> Null) by discriminate. clearbody s.
  rewrite (smap_table s Ns). simpl elem. constructor; auto.
  - apply put_apart, vocabulary_apart.
  - intros n j I. apply in_flat_map in I. destruct I as ([n' f] & I & J). unfold put in J. simpl in J.
    destruct (render f) as [j'|] eqn:Rf; [|destruct J]. destruct J as [J|[]]. injection J as -> ->. exists f. split; auto.
    apply render_rendered; auto. intros t Ht. apply IH. eapply field_below; eauto.
  - intros n f I. destruct (render f) as [j|] eqn:Rf; [right|left; now apply render_unset].
    apply in_map_iff. exists (n, j). split; auto. apply in_flat_map. exists (n, f). split; auto. unfold put. simpl. rewrite Rf. now left.
Qed.

(** * Map determines the schema *)
Lemma put_eq t1 : forall t2, map fst t1 = map fst t2 -> NoDup (map fst t1) -> flat_map put t1 = flat_map put t2 ->
  forall n f g, In (n, f) t1 -> In (n, g) t2 -> render f = render g.
Proof.
  induction t1 as [|[k f] t1 IH]; intros [|[k' g] t2] E N P n f0 g0 I1 I2; try destruct I1; try discriminate.
  - injection H as -> ->. simpl in *. injection E as <- E. destruct I2 as [I2|I2].
    + injection I2 as ->. inversion N; subst.
      assert (A : forall t, ~ In n (map fst t) -> forall j, ~ In (n, j) (flat_map put t)).
      { intros t H j I. apply H. apply put_names. apply in_map_iff. exists (n, j). auto. }
      pose proof (A t1 H1) as A1. rewrite E in H1. pose proof (A t2 H1) as A2. unfold put in P at 1 3. simpl in P.
      destruct (render f0) as [j1|], (render g0) as [j2|]; simpl in P; try congruence.
      * exfalso. apply (A2 j1). rewrite <- P. now left.
      * exfalso. apply (A1 j2). rewrite P. now left.
    + exfalso. inversion N; subst. apply H1. rewrite E. apply in_map_iff. exists (n, g0). auto.
  - simpl in *. injection E as <- E. inversion N; subst. destruct I2 as [I2|I2].
    { injection I2 as -> ->. exfalso. apply H2. apply in_map_iff. exists (n, f0). auto. }
    assert (Q : flat_map put t1 = flat_map put t2).
    { assert (A : forall t, ~ In k (map fst t) -> forall j, ~ In (k, j) (flat_map put t)).
      { intros t H' j I. apply H'. apply put_names. apply in_map_iff. exists (k, j). auto. }
      pose proof (A t1 H2) as A1. assert (H2' := H2). rewrite E in H2'. pose proof (A t2 H2') as A2. unfold put in P at 1 3. simpl in P.
      destruct (render f) as [j1|], (render g) as [j2|]; simpl in P; try congruence.
      - exfalso. apply (A2 j1). rewrite <- P. now left.
      - exfalso. apply (A1 j2). rewrite P. now left. }
    eapply IH; eauto.
Qed.

Lemma map_inj {A B C} (f : A -> B) (g : A -> C) l1 : forall l2, (forall x y, In x l1 -> In y l2 -> f x = f y -> g x = g y) ->
  map f l1 = map f l2 -> map g l1 = map g l2.
Proof.
  induction l1 as [|x l1 IH]; intros [|y l2] H E; try discriminate; auto. simpl in *. injection E as E1 E2. f_equal; auto.
Qed.
Lemma map_id_inj {A B} (f : A -> B) l1 l2 : (forall x y, f x = f y -> x = y) -> map f l1 = map f l2 -> l1 = l2.
Proof. intros H E. rewrite <- (map_id l1), <- (map_id l2). eapply map_inj; [|exact E]. auto. Qed.

Lemma or_nil_entries {A} (o1 o2 : option (list A)) : entries o1 = entries o2 -> or_nil o1 = or_nil o2.
Proof. destruct o1 as [[|]|], o2 as [[|]|]; simpl; congruence. Qed.
Lemma or_nil_map {A B} (f : list A -> list B) (o1 o2 : option (list A)) : f [] = [] -> f (entries o1) = f (entries o2) ->
  or_nil (option_map f o1) = or_nil (option_map f o2).
Proof. intros H E. apply or_nil_entries. destruct o1, o2; simpl in *; congruence. Qed.

Lemma r_text_inj x y : render (FText x) = render (FText y) -> x = y.
Proof. simpl. destruct (String.eqb_spec x ""), (String.eqb_spec y ""); congruence. Qed.
Lemma r_number_inj x y : render (FNumber x) = render (FNumber y) -> x = y.
Proof. simpl. destruct x, y; simpl; congruence. Qed.
Lemma r_count_inj x y : render (FCount x) = render (FCount y) -> x = y.
Proof. simpl. destruct x, y; simpl; congruence. Qed.
Lemma r_flag_inj x y : render (FFlag x) = render (FFlag y) -> x = y.
Proof. simpl. destruct x, y; simpl; congruence. Qed.
Lemma r_value_inj x y : render (FValue x) = render (FValue y) -> x = y.
Proof. simpl. destruct x, y; congruence. Qed.
Lemma r_values_inj x y : render (FValues x) = render (FValues y) -> x = y.
Proof. simpl. destruct x, y; try congruence. intros E. injection E as -> E. f_equal. eapply map_id_inj; [|exact E]. congruence. Qed.
Lemma r_texts_inj x y : render (FTexts x) = render (FTexts y) -> x = y.
Proof. simpl. destruct x, y; try congruence. intros E. injection E as -> E. f_equal. eapply map_id_inj; [|exact E]. congruence. Qed.
Lemma r_data_inj x y : render (FData x) = render (FData y) -> x = y.
Proof.
  destruct x as [|a x], y as [|b y]; try discriminate; auto. intros E.
  assert (E' : map (fun kv : string * gval => (fst kv, JVal (snd kv))) (a :: x) = map (fun kv => (fst kv, JVal (snd kv))) (b :: y)) by (simpl in *; congruence).
  eapply map_id_inj; [|exact E']. intros [] []; simpl; congruence.
Qed.
Lemma elem_inj s t : elem (smap s) = elem (smap t) -> smap s = smap t.
Proof.
  assert (C : forall s, smap s = None \/ exists l, smap s = Some (JObj l)).
  { intros u. destruct u; [now left|right]. rewrite smap_table by discriminate. eauto. }
  destruct (C s) as [->|(l & ->)], (C t) as [->|(l' & ->)]; simpl; congruence.
Qed.
Lemma r_schemas_inj x y : (forall s, In s x -> forall t, smap s = smap t -> plain s = plain t) ->
  render (FSchemas x) = render (FSchemas y) -> map plain x = map plain y.
Proof.
  intros H E. assert (E' : map (fun x => elem (smap x)) x = map (fun x => elem (smap x)) y)
    by (destruct x; destruct y; try discriminate; [reflexivity|]; exact (f_equal (fun o => match o with Some (JList l) => l | _ => [] end) E)).
  eapply map_inj; [|exact E']. intros s t I _ Q. apply H; auto.
  now apply elem_inj.
Qed.
Lemma r_named_inj x y : (forall s, In s (map snd x) -> forall t, smap s = smap t -> plain s = plain t) ->
  render (FNamed x) = render (FNamed y) -> map (fun kv => (fst kv, plain (snd kv))) x = map (fun kv => (fst kv, plain (snd kv))) y.
Proof.
  intros H E. assert (E' : map (fun kv => (fst kv, elem (smap (snd kv)))) x = map (fun kv => (fst kv, elem (smap (snd kv)))) y)
    by (destruct x; destruct y; try discriminate; [reflexivity|]; exact (f_equal (fun o => match o with Some (JObj l) => l | _ => [] end) E)).
  eapply map_inj; [|exact E']. intros [k s] [k' t] I _ Q. simpl in *. injection Q as <- Q. f_equal. apply H; [apply in_map_iff; exists (k, s); auto|].
  now apply elem_inj.
Qed.

Lemma sch_eq k1 d1 al1 an1 on1 nt1 it1 th1 el1 its1 ps1 pps1 pn1 ann1 fd1 fx1 k2 d2 al2 an2 on2 nt2 it2 th2 el2 its2 ps2 pps2 pn2 ann2 fd2 fx2 :
  k1 = k2 -> d1 = d2 -> al1 = al2 -> an1 = an2 -> on1 = on2 -> nt1 = nt2 -> it1 = it2 -> th1 = th2 -> el1 = el2 -> its1 = its2 ->
  ps1 = ps2 -> pps1 = pps2 -> pn1 = pn2 -> ann1 = ann2 -> fd1 = fd2 -> fx1 = fx2 ->
  Sch k1 d1 al1 an1 on1 nt1 it1 th1 el1 its1 ps1 pps1 pn1 ann1 fd1 fx1 = Sch k2 d2 al2 an2 on2 nt2 it2 th2 el2 its2 ps2 pps2 pn2 ann2 fd2 fx2.
Proof. intros; subst; reflexivity. Qed.

Theorem smap_faithful s : forall t, smap s = smap t -> plain s = plain t.
Proof.
  induction s as [s IH] using below_ind. intros t E.
  destruct s as [|k1 d1 al1 an1 on1 nt1 it1 th1 el1 its1 ps1 pps1 pn1 ann1 fd1 fx1], t as [|k2 d2 al2 an2 on2 nt2 it2 th2 el2 its2 ps2 pps2 pn2 ann2 fd2 fx2];
    auto; try discriminate.
  rewrite !(smap_table (Sch _ _ _ _ _ _ _ _ _ _ _ _ _ _ _ _) ltac:(discriminate)) in E.
  apply (f_equal (fun o => match o with Some (JObj l) => l | _ => [] end)) in E. cbn iota beta in E.
  match type of E with flat_map put (vocabulary ?s) = flat_map put (vocabulary ?t) =>
    pose proof (put_eq (vocabulary s) (vocabulary t) eq_refl (vocabulary_apart s) E) as P end. clear E.
  assert (L : forall l s, In s l -> (forall s, In s l -> In s (below_schema (Sch k1 d1 al1 an1 on1 nt1 it1 th1 el1 its1 ps1 pps1 pn1 ann1 fd1 fx1))) ->
    forall t, smap s = smap t -> plain s = plain t) by (intros; eapply IH; eauto).
  assert (Q : forall n f g, nth_error (vocabulary (Sch k1 d1 al1 an1 on1 nt1 it1 th1 el1 its1 ps1 pps1 pn1 ann1 fd1 fx1)) n = Some f ->
     nth_error (vocabulary (Sch k2 d2 al2 an2 on2 nt2 it2 th2 el2 its2 ps2 pps2 pn2 ann2 fd2 fx2)) n = Some g -> fst f = fst g -> render (snd f) = render (snd g)).
  { intros n [a f] [b g] Nf Ng Eq. simpl in Eq. subst b. eapply P; eapply nth_error_In; eauto. }
  clear P.
  unfold below_schema in *. 
  pose proof (r_text_inj _ _ (Q 0 _ _ eq_refl eq_refl eq_refl)). pose proof (r_text_inj _ _ (Q 1 _ _ eq_refl eq_refl eq_refl)).
  pose proof (r_text_inj _ _ (Q 2 _ _ eq_refl eq_refl eq_refl)). pose proof (r_text_inj _ _ (Q 3 _ _ eq_refl eq_refl eq_refl)).
  pose proof (r_text_inj _ _ (Q 4 _ _ eq_refl eq_refl eq_refl)). pose proof (r_values_inj _ _ (Q 5 _ _ eq_refl eq_refl eq_refl)) as Hen.
  pose proof (r_value_inj _ _ (Q 6 _ _ eq_refl eq_refl eq_refl)). pose proof (r_number_inj _ _ (Q 7 _ _ eq_refl eq_refl eq_refl)).
  pose proof (r_number_inj _ _ (Q 8 _ _ eq_refl eq_refl eq_refl)). pose proof (r_number_inj _ _ (Q 9 _ _ eq_refl eq_refl eq_refl)).
  pose proof (r_count_inj _ _ (Q 10 _ _ eq_refl eq_refl eq_refl)). pose proof (r_count_inj _ _ (Q 11 _ _ eq_refl eq_refl eq_refl)).
  pose proof (r_text_inj _ _ (Q 12 _ _ eq_refl eq_refl eq_refl)). pose proof (r_count_inj _ _ (Q 13 _ _ eq_refl eq_refl eq_refl)).
  pose proof (r_count_inj _ _ (Q 14 _ _ eq_refl eq_refl eq_refl)). pose proof (r_flag_inj _ _ (Q 15 _ _ eq_refl eq_refl eq_refl)).
  pose proof (r_count_inj _ _ (Q 16 _ _ eq_refl eq_refl eq_refl)). pose proof (r_count_inj _ _ (Q 17 _ _ eq_refl eq_refl eq_refl)).
  pose proof (r_count_inj _ _ (Q 18 _ _ eq_refl eq_refl eq_refl)). pose proof (r_count_inj _ _ (Q 19 _ _ eq_refl eq_refl eq_refl)).
  pose proof (r_texts_inj _ _ (Q 20 _ _ eq_refl eq_refl eq_refl)). pose proof (r_text_inj _ _ (Q 21 _ _ eq_refl eq_refl eq_refl)).
  pose proof (r_text_inj _ _ (Q 22 _ _ eq_refl eq_refl eq_refl)). pose proof (r_text_inj _ _ (Q 23 _ _ eq_refl eq_refl eq_refl)).
  pose proof (r_text_inj _ _ (Q 24 _ _ eq_refl eq_refl eq_refl)). pose proof (r_text_inj _ _ (Q 25 _ _ eq_refl eq_refl eq_refl)).
  pose proof (r_value_inj _ _ (Q 26 _ _ eq_refl eq_refl eq_refl)). pose proof (r_values_inj _ _ (Q 27 _ _ eq_refl eq_refl eq_refl)).
  pose proof (r_flag_inj _ _ (Q 39 _ _ eq_refl eq_refl eq_refl)).
  pose proof (r_data_inj _ _ (Q 41 _ _ eq_refl eq_refl eq_refl)) as Ha. pose proof (r_data_inj _ _ (Q 43 _ _ eq_refl eq_refl eq_refl)) as Hx.
  assert (Hk : plain_kw k1 = plain_kw k2).
  { unfold plain_kw. apply or_nil_entries in Hen. clear - H H0 H1 H2 H3 H4 H5 H6 H7 H8 H9 H10 H11 H12 H13 H14 H15 H16 H17 H18 H19 H20 H21 H22 H23 H24 H25 H26 Hen.
    simpl in *. rewrite H, H0, H1, H2, H3, H4, H5, H6, H7, H8, H9, H10, H11, H12, H13, H14, H15, H16, H17, H18, H19, H20, H21, H22, H23, H24, H25, H26, Hen. reflexivity. }
  pose proof (fun L0 => r_named_inj _ _ L0 (Q 28 _ _ eq_refl eq_refl eq_refl)) as Hd.
  pose proof (fun L0 => r_schemas_inj _ _ L0 (Q 29 _ _ eq_refl eq_refl eq_refl)) as Hal.
  pose proof (fun L0 => r_schemas_inj _ _ L0 (Q 30 _ _ eq_refl eq_refl eq_refl)) as Han.
  pose proof (fun L0 => r_schemas_inj _ _ L0 (Q 31 _ _ eq_refl eq_refl eq_refl)) as Hon.
  pose proof (Q 32 _ _ eq_refl eq_refl eq_refl) as Hnt. pose proof (Q 33 _ _ eq_refl eq_refl eq_refl) as Hit.
  pose proof (Q 34 _ _ eq_refl eq_refl eq_refl) as Hth. pose proof (Q 35 _ _ eq_refl eq_refl eq_refl) as Hel.
  pose proof (Q 36 _ _ eq_refl eq_refl eq_refl) as Hits. pose proof (Q 40 _ _ eq_refl eq_refl eq_refl) as Hpn.
  pose proof (fun L0 => r_named_inj _ _ L0 (Q 37 _ _ eq_refl eq_refl eq_refl)) as Hps.
  pose proof (fun L0 => r_named_inj _ _ L0 (Q 38 _ _ eq_refl eq_refl eq_refl)) as Hpps.
  pose proof (fun L0 => r_named_inj _ _ L0 (Q 42 _ _ eq_refl eq_refl eq_refl)) as Hfd.
  clear Q L. cbn [snd render] in Hnt, Hit, Hth, Hel, Hits, Hpn.
  assert (B : forall l, (forall s, In s l -> In s (map snd d1 ++ al1 ++ an1 ++ on1 ++ [nt1; it1; th1; el1; its1; pn1] ++
     map snd (entries ps1) ++ map snd (entries pps1) ++ map snd (entries fd1))) -> forall s, In s l -> forall t, smap s = smap t -> plain s = plain t)
    by (intros; apply IH; auto).
  cbn [plain]. apply sch_eq.
  - exact Hk.
  - apply Hd, B. intros s I. rewrite !in_app_iff. tauto.
  - apply Hal, B. intros s I. rewrite !in_app_iff. tauto.
  - apply Han, B. intros s I. rewrite !in_app_iff. tauto.
  - apply Hon, B. intros s I. rewrite !in_app_iff. tauto.
  - apply IH; auto. rewrite !in_app_iff. simpl. tauto.
  - apply IH; auto. rewrite !in_app_iff. simpl. tauto.
  - apply IH; auto. rewrite !in_app_iff. simpl. tauto.
  - apply IH; auto. rewrite !in_app_iff. simpl. tauto.
  - apply IH; auto. rewrite !in_app_iff. simpl. tauto.
  - apply or_nil_map; auto. apply Hps, B. intros s I. rewrite !in_app_iff. simpl in I. tauto.
  - apply or_nil_map; auto. apply Hpps, B. intros s I. rewrite !in_app_iff. simpl in I. tauto.
  - apply IH; auto. rewrite !in_app_iff. simpl. tauto.
  - now apply or_nil_entries.
  - apply or_nil_map; auto. apply Hfd, B. intros s I. rewrite !in_app_iff. simpl in I. tauto.
  - now apply or_nil_entries.
Qed.

Lemma plain_named l : (forall s, In s (map snd l) -> smap (plain s) = smap s) -> forall k,
  put (k, FNamed (map (fun kv => (fst kv, plain (snd kv))) l)) = put (k, FNamed l).
Proof.
  intros H k. unfold put. cbn [fst snd].
  assert (E : map (fun kv => (fst kv, elem (smap (snd kv)))) (map (fun kv : string * schema => (fst kv, plain (snd kv))) l)
            = map (fun kv => (fst kv, elem (smap (snd kv)))) l).
  { rewrite map_map. apply map_ext_in. intros [n s] I. cbn [fst snd]. rewrite H; auto. apply in_map_iff. exists (n, s). auto. }
  destruct l as [|x l]; [reflexivity|]. cbn [map] in *. cbn [render map]. now rewrite E.
Qed.
Lemma plain_schemas l : (forall s, In s l -> smap (plain s) = smap s) -> forall k, put (k, FSchemas (map plain l)) = put (k, FSchemas l).
Proof.
  intros H k. unfold put. cbn [fst snd].
  assert (E : map (fun x => elem (smap x)) (map plain l) = map (fun x => elem (smap x)) l).
  { rewrite map_map. apply map_ext_in. intros s I. now rewrite H. }
  destruct l as [|x l]; [reflexivity|]. cbn [map] in *. cbn [render map]. now rewrite E.
Qed.
Lemma entries_or_nil {A} (o : option (list A)) : entries (or_nil o) = entries o.
Proof. now destruct o as [[|]|]. Qed.
Lemma entries_map {A B} (f : A -> B) (o : option (list A)) : entries (option_map (map f) o) = map f (entries o).
Proof. now destruct o. Qed.

Theorem smap_plain s : smap (plain s) = smap s.
Proof.
  induction s as [s IH] using below_ind. destruct s as [|k d al an on nt it th el its ps pps pn ann fd fx]; [reflexivity|].
  rewrite !smap_table by discriminate. do 2 f_equal. cbn [plain vocabulary flat_map].
  unfold below_schema in IH.
  assert (B : forall l, (forall s, In s l -> In s (map snd d ++ al ++ an ++ on ++ [nt; it; th; el; its; pn] ++
     map snd (entries ps) ++ map snd (entries pps) ++ map snd (entries fd))) -> forall s, In s l -> smap (plain s) = smap s)
    by (intros; apply IH; auto).
  assert (Hs : forall x k, In x [nt; it; th; el; its; pn] -> put (k, FSchema (plain x)) = put (k, FSchema x)).
  { intros x k0 I. unfold put. cbn [fst snd render]. rewrite IH; auto. rewrite !in_app_iff. tauto. }
  rewrite !entries_or_nil, !entries_map. cbn [k_version k_id k_ref k_comment k_addl k_type k_enum k_const k_mult k_max k_min k_maxlen k_minlen
    k_pattern k_maxitems k_minitems k_uniq k_maxcont k_mincont k_maxprops k_minprops k_required k_enc k_media k_format k_title k_desc
    k_default k_examples plain_kw]. rewrite !entries_or_nil.
  rewrite (plain_named d) by (apply B; intros s I; rewrite !in_app_iff; tauto).
  rewrite (plain_named (entries ps)) by (apply B; intros s I; rewrite !in_app_iff; tauto).
  rewrite (plain_named (entries pps)) by (apply B; intros s I; rewrite !in_app_iff; tauto).
  rewrite (plain_named (entries fd)) by (apply B; intros s I; rewrite !in_app_iff; tauto).
  rewrite (plain_schemas al) by (apply B; intros s I; rewrite !in_app_iff; tauto).
  rewrite (plain_schemas an) by (apply B; intros s I; rewrite !in_app_iff; tauto).
  rewrite (plain_schemas on) by (apply B; intros s I; rewrite !in_app_iff; tauto).
  rewrite (Hs nt), (Hs it), (Hs th), (Hs el), (Hs its), (Hs pn) by (simpl; tauto). reflexivity.
Qed.

Theorem smap_same s t : smap s = smap t <-> plain s = plain t.
Proof. split; [apply smap_faithful|]. intros H. rewrite <- (smap_plain s), <- (smap_plain t). now rewrite H. Qed.
