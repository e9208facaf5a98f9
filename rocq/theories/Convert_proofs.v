(** Proofs about the conversion to JSON Schema. *)
From Coq Require Import ZArith List String Ascii Bool Lia.
From Coq Require Import Floats.SpecFloat.
From Verif Require Import Base Scalars Spec_Scalars Heap Heap_lemmas Spec_Validate Schema Convert Spec_Schema.
From Verif Require Yaml_proofs Scalars_proofs.
Import ListNotations.
Open Scope string_scope.
Open Scope list_scope.
Open Scope nat_scope.

(** * Sequencing *)

Lemma cbind_ok {A B} (m : C A) (f : A -> C B) d y d2 : cbind m f d = Ok (y, d2) ->
  exists x d1, m d = Ok (x, d1) /\ f x d1 = Ok (y, d2).
Proof. unfold cbind. destruct (m d) as [[x d1]| | |] eqn:E; try discriminate. intros H. exists x, d1. auto. Qed.
Lemma cread_ok {A} (o : option A) d x d' : cread o d = Ok (x, d') -> o = Some x /\ d' = d.
Proof. destruct o; simpl; [|discriminate]. intros H. inversion H; subst. auto. Qed.
Lemma cret_ok {A} (y : A) d x d' : cret y d = Ok (x, d') -> x = y /\ d' = d.
Proof. unfold cret. intros H. inversion H; subst. auto. Qed.

(** * Induction on documents *)

Lemma schema_below_ind (P : schema -> Prop) :
  (forall s, (forall t, In t (below_schema s) -> P t) -> P s) -> forall s, P s.
Proof.
  intros H. fix IH 1. intros s. destruct s as [|k d al an on nt it th el its ps pps pn ann fd fx].
  - apply H. intros t [].
  - assert (L : forall l : list schema, forall t, In t l -> P t).
    { fix IHl 1. intros [|x l] t; [intros []|]. intros [<-|I]; [apply IH|exact (IHl l t I)]. }
    assert (M : forall l : list (string * schema), forall t, In t (map snd l) -> P t).
    { fix IHl 1. intros [|[n x] l] t; [intros []|]. intros [<-|I]; [apply IH|exact (IHl l t I)]. }
    assert (N : forall o : option (list (string * schema)), forall t, In t (map snd (entries o)) -> P t).
    { intros [l|] t; [apply (M l)|intros []]. }
    apply H. unfold below_schema. intros t I.
    rewrite !in_app_iff in I. destruct I as [I|[I|[I|[I|[I|[I|[I|I]]]]]]].
    + exact (M d t I).
    + exact (L al t I).
    + exact (L an t I).
    + exact (L on t I).
    + destruct I as [<-|[<-|[<-|[<-|[<-|[<-|[]]]]]]]; apply IH.
    + exact (N ps t I).
    + exact (N pps t I).
    + exact (N fd t I).
Qed.

Lemma refers_iff s r : refers s r <-> r <> "" /\ (k_ref (keywords s) = r \/ exists t, In t (below_schema s) /\ refers t r).
Proof.
  split.
  - intros [N (t & I & E)]. split; auto. destruct I as [s|s t u I1 I2]; [now left|]. right. exists t. split; auto.
    split; auto. exists u. auto.
  - intros [N [E|(t & I & _ & u & I2 & E)]]; split; auto.
    + exists s. split; [constructor|auto].
    + exists u. split; auto. eapply in_below; eauto.
Qed.

Lemma refers_null r : ~ refers Null r.
Proof. rewrite refers_iff. simpl. intros [N [E|(t & [] & _)]]. now apply N. Qed.

Lemma drop_empty_entries {A} (o : option (list A)) : entries (drop_empty o) = entries o.
Proof. destruct o as [[|x l]|]; reflexivity. Qed.

(** recast keeps the nodes below, the three RAML maps excepted. *)
Lemma recast_below s t : In t (below_schema (recast s)) -> exists u, In u (below_schema s) /\ t = recast u.
Proof.
  destruct s as [|k d al an on nt it th el its ps pps pn ann fd fx]; [intros []|].
  unfold below_schema. simpl recast. cbn iota. rewrite !drop_empty_entries. rewrite !in_app_iff.
  assert (M : forall l, In t (map snd (map (fun kv : string * schema => (fst kv, recast (snd kv))) l)) ->
     exists u, In u (map snd l) /\ t = recast u).
  { intros l I. rewrite map_map in I. simpl in I. apply in_map_iff in I. destruct I as (kv & <- & I).
    exists (snd kv). split; auto. now apply in_map. }
  assert (M' : forall o, In t (map snd (entries (option_map (map (fun kv : string * schema => (fst kv, recast (snd kv)))) o))) ->
     exists u, In u (map snd (entries o)) /\ t = recast u).
  { intros [l|]; simpl; [apply M|intros []]. }
  assert (L : forall l, In t (map recast l) -> exists u, In u l /\ t = recast u).
  { intros l I. apply in_map_iff in I. destruct I as (u & <- & I). eauto. }
  intros [I|[I|[I|[I|[I|[I|[I|I]]]]]]].
  - destruct (M _ I) as (u & J & ->). exists u. rewrite !in_app_iff. tauto.
  - destruct (L _ I) as (u & J & ->). exists u. rewrite !in_app_iff. tauto.
  - destruct (L _ I) as (u & J & ->). exists u. rewrite !in_app_iff. tauto.
  - destruct (L _ I) as (u & J & ->). exists u. rewrite !in_app_iff. tauto.
  - destruct (L [nt; it; th; el; its; pn] I) as (u & J & ->). exists u. rewrite !in_app_iff. tauto.
  - destruct (M' _ I) as (u & J & ->). exists u. rewrite !in_app_iff. tauto.
  - destruct (M' _ I) as (u & J & ->). exists u. rewrite !in_app_iff. tauto.
  - destruct I.
Qed.
Lemma recast_keywords s : keywords (recast s) = keywords s.
Proof. destruct s; reflexivity. Qed.
Lemma recast_refers s r : refers (recast s) r -> refers s r.
Proof.
  induction s as [s IH] using schema_below_ind. rewrite !(refers_iff _ r). intros [N H]. split; auto.
  rewrite recast_keywords in H. destruct H as [H|(t & I & R)]; [now left|]. right.
  destruct (recast_below _ _ I) as (u & J & ->). exists u. auto.
Qed.

(** * What a visit produces *)

(** Keywords of the kinds without children. *)
Definition leaf_kw (sh : shape) (k : kw) : option kw :=
  match sh with
  | SStr f => Some (with_enum (sf_enum f)
      (match sf_pat f with Some p => with_pattern p | None => fun k => k end
         (with_length (sf_min f) (sf_max f) (with_type "string" k))))
  | SInt f => Some (with_enum (if_enum f)
      (with_range (option_map NumZ (if_min f)) (option_map NumZ (if_max f)) (option_map NumF (if_mult f))
         (with_type "integer" k)))
  | SNum f => Some (with_enum (nf_enum f)
      (with_range (option_map NumF (nf_min f)) (option_map NumF (nf_max f)) (option_map NumF (nf_mult f))
         (with_type "number" k)))
  | SFile f =>
      match ff_types f with
      | None => Some (with_content "base64" "" (with_length (ff_min f) (ff_max f) (with_type "string" k)))
      | Some (GStr m :: _) => Some (with_content "base64" m (with_length (ff_min f) (ff_max f) (with_type "string" k)))
      | Some _ => None
      end
  | SBool e => Some (with_enum e (with_type "boolean" k))
  | SDateTime f => Some (
      let k' := with_type "string" k in
      match f with
      | None => with_format "date-time" k'
      | Some x => if String.eqb x "rfc3339" then with_format "date-time" k'
                  else if String.eqb x "rfc2616" then with_pattern pattern_2616 k' else k'
      end)
  | SDateTimeOnly => Some (with_pattern pattern_datetime_only (with_type "string" k))
  | SDateOnly => Some (with_format "date" (with_type "string" k))
  | STimeOnly => Some (with_format "time" (with_type "string" k))
  | SAny => Some k
  | SNil => Some (with_type "null" k)
  | _ => None
  end.

Section Mirrors.
Variable E : cenv.
Variable a0 : addr.
Let h := c_heap E.

Inductive mirrors : addr -> schema -> Prop :=
| mi_leaf a b sh k x : get_base h a = Some b -> b_shape b = Some sh -> leaf_kw sh (meta b) = Some k ->
    mirrors a (node_with k [] Null None None x)
| mi_array a b f si x : get_base h a = Some b -> b_shape b = Some (SArray f) ->
    ((a_items f = None /\ si = Null) \/ exists i, a_items f = Some i /\ mirrors i si) ->
    mirrors a (node_with (with_items f (with_type "array" (meta b))) [] si None None x)
| mi_object a b f l ls pl pls x : get_base h a = Some b -> b_shape b = Some (SObject f) ->
    props_of h (o_props f) l -> props_of h (o_pprops f) pl ->
    (o_props f = None <-> ls = None) -> (o_pprops f = None <-> pls = None) ->
    Forall2 (fun kp ks => fst kp = fst ks /\ mirrors (p_base (snd kp)) (snd ks)) l (entries ls) ->
    (forall q t, In (q, t) (entries pls) -> exists k p, In (k, p) pl /\ unslash k = Some q /\ mirrors (p_base p) t) ->
    (forall k p, In (k, p) pl -> exists q t, unslash k = Some q /\ In (q, t) (entries pls)) ->
    mirrors a (node_with (with_object f (required_names l) (with_type "object" (meta b))) [] Null ls pls x)
| mi_union a b sl e l ms x : get_base h a = Some b -> b_shape b = Some (SUnion sl e) -> get_slice h sl = Some l ->
    Forall2 mirrors l ms -> mirrors a (node_with (meta b) ms Null None None x)
| mi_rec a hd hb : shape_at h a (SRec hd) -> get_base h hd = Some hb ->
    mirrors a (leaf (with_ref (def_ref (b_name hb)) kw0))
| mi_json a raw s : shape_at h a (SJSON raw) -> s <> Null -> mirrors a s
| mi_none a b : get_base h a = Some b -> (b_shape b = Some SUnknown \/ b_shape b = None) -> mirrors a Null.

Definition ok_ref (d : omap schema) (r : string) : Prop := exists n, r = def_ref n /\ oget n d <> None.

Record grows (d d' : omap schema) : Prop := {
  gr_keep : forall n s, oget n d = Some s -> oget n d' = Some s;
  gr_new : forall n s, oget n d' = Some s -> oget n d = Some s
    \/ exists r hd hb, occurs h a0 r /\ shape_at h r (SRec hd) /\ get_base h hd = Some hb /\ b_shape hb <> None /\ b_name hb = n /\ mirrors hd s
         /\ forall q, refers s q -> ok_ref d' q;
  gr_nodup : NoDup (map fst d) -> NoDup (map fst d')
}.

Lemma ok_ref_grows d d' r : grows d d' -> ok_ref d r -> ok_ref d' r.
Proof.
  intros G (n & -> & D). exists n. split; auto. destruct (oget n d) as [s|] eqn:K; [|congruence].
  rewrite (gr_keep _ _ G _ _ K). discriminate.
Qed.
Lemma grows_refl d : grows d d.
Proof. split; auto. Qed.
Lemma grows_trans d1 d2 d3 : grows d1 d2 -> grows d2 d3 -> grows d1 d3.
Proof.
  intros G1 G2. split.
  - intros n s K. apply (gr_keep _ _ G2). now apply (gr_keep _ _ G1).
  - intros n s K. destruct (gr_new _ _ G2 _ _ K) as [K2|K2]; auto.
    destruct (gr_new _ _ G1 _ _ K2) as [K1|(r & hd & hb & Oc & A & B & C0 & D & M & R)]; auto. right.
    exists r, hd, hb. repeat (split; auto). intros q Q. eapply ok_ref_grows; [exact G2|auto].
  - intros N. apply (gr_nodup _ _ G2). now apply (gr_nodup _ _ G1).
Qed.

Lemma oget_oset {A} n m (x : A) l : oget n (oset m x l) = if String.eqb n m then Some x else oget n l.
Proof.
  induction l as [|[k y] l IH]; simpl.
  - destruct (String.eqb n m) eqn:K; auto.
  - destruct (String.eqb m k) eqn:K.
    + apply String.eqb_eq in K. subst k. simpl. destruct (String.eqb n m); auto.
    + simpl. rewrite IH. destruct (String.eqb n k) eqn:K2; auto. apply String.eqb_eq in K2. subst k.
      rewrite String.eqb_sym, K. reflexivity.
Qed.

Definition refs_ok (s : schema) (d : omap schema) : Prop := forall r, refers s r -> ok_ref d r.

Definition good (m : C schema) (Q : schema -> Prop) : Prop := forall d s d', m d = Ok (s, d') ->
  grows d d' /\ Q s /\ refs_ok s d'.

Hypothesis json_refs : forall x raw r, occurs h a0 x -> shape_at h x (SJSON raw) -> ~ refers (c_json E raw) r.

Section Body.
Variable rec : addr -> C schema.
Hypothesis Hrec : forall a, occurs h a0 a -> good (rec a) (mirrors a).

Lemma cmap_good l : (forall k p, In (k, p) l -> occurs h a0 (p_base p)) -> forall d r d', cmap (fun p => rec (p_base p)) l d = Ok (r, d') ->
  grows d d' /\ Forall2 (fun kp ks => fst kp = fst ks /\ mirrors (p_base (snd kp)) (snd ks)) l r
  /\ forall s, In s (map snd r) -> refs_ok s d'.
Proof.
  induction l as [|[k p] l IH]; intros OC d r d' H; simpl in H.
  - apply cret_ok in H. destruct H as [-> ->]. split; [apply grows_refl|]. split; [constructor|intros s []].
  - apply cbind_ok in H. destruct H as (y & d1 & H1 & H). apply cbind_ok in H. destruct H as (ys & d2 & H2 & H).
    apply cret_ok in H. destruct H as [-> ->]. destruct (Hrec _ (OC k p (or_introl eq_refl)) _ _ _ H1) as (G1 & M & R). destruct (IH (fun k' p' I => OC k' p' (or_intror I)) _ _ _ H2) as (G2 & F & R2).
    split; [eapply grows_trans; eauto|]. split; [constructor; auto|].
    simpl. intros s [<-|I]; auto. intros q Q. eapply ok_ref_grows; [exact G2|auto].
Qed.

Lemma clist_good l : (forall p, In p l -> occurs h a0 p) -> forall d r d', clist rec l d = Ok (r, d') ->
  grows d d' /\ Forall2 mirrors l r /\ forall s, In s r -> refs_ok s d'.
Proof.
  induction l as [|p l IH]; intros OC d r d' H; simpl in H.
  - apply cret_ok in H. destruct H as [-> ->]. split; [apply grows_refl|]. split; [constructor|intros s []].
  - apply cbind_ok in H. destruct H as (y & d1 & H1 & H). apply cbind_ok in H. destruct H as (ys & d2 & H2 & H).
    apply cret_ok in H. destruct H as [-> ->]. destruct (Hrec _ (OC p (or_introl eq_refl)) _ _ _ H1) as (G1 & M & R). destruct (IH (fun p' I => OC p' (or_intror I)) _ _ _ H2) as (G2 & F & R2).
    split; [eapply grows_trans; eauto|]. split; [constructor; auto|].
    simpl. intros s [<-|I]; auto. intros q Q. eapply ok_ref_grows; [exact G2|auto].
Qed.

Lemma in_oset {A} n (x : A) l : In (n, x) (oset n x l).
Proof.
  induction l as [|[k y] l IH]; simpl; auto. destruct (String.eqb n k) eqn:K; [|right; auto].
  apply String.eqb_eq in K. subst. now left.
Qed.
Lemma in_oset_inv {A} n (x : A) l m y : In (m, y) (oset n x l) -> (m = n /\ y = x) \/ In (m, y) l.
Proof.
  induction l as [|[k z] l IH]; simpl.
  - intros [H|[]]. inversion H; subst. auto.
  - destruct (String.eqb n k) eqn:K.
    + apply String.eqb_eq in K. subst. intros [H|H]; [inversion H; subst; auto|auto].
    + intros [H|H]; [auto|]. destruct (IH H) as [?|?]; auto.
Qed.
Lemma in_oset_key {A} n (x : A) l m y : In (m, y) l -> exists z, In (m, z) (oset n x l).
Proof.
  induction l as [|[k z] l IH]; simpl; [intros []|]. destruct (String.eqb n k) eqn:K.
  - apply String.eqb_eq in K. subst. intros [H|H]; [inversion H; subst; eexists; left; reflexivity|eexists; right; exact H].
  - intros [H|H]; [eexists; left; exact H|]. destruct (IH H) as (z' & Z). exists z'. now right.
Qed.

Lemma patterns_good l : (forall k p, In (k, p) l -> occurs h a0 (p_base p)) -> forall acc d r d', visit_patterns rec l acc d = Ok (r, d') ->
  grows d d'
  /\ (forall q t, In (q, t) r -> In (q, t) acc \/ exists k p, In (k, p) l /\ unslash k = Some q /\ mirrors (p_base p) t /\ refs_ok t d')
  /\ (forall k p, In (k, p) l -> exists q t, unslash k = Some q /\ In (q, t) r)
  /\ (forall q t, In (q, t) acc -> exists t', In (q, t') r).
Proof.
  induction l as [|[k p] l IH]; intros OC acc d r d' H; simpl in H.
  - apply cret_ok in H. destruct H as [-> ->]. split; [apply grows_refl|]. split; [auto|]. split; [intros ? ? []|]. eauto.
  - apply cbind_ok in H. destruct H as (k' & d0 & H0 & H). apply cread_ok in H0. destruct H0 as [U ->].
    apply cbind_ok in H. destruct H as (y & d1 & H1 & H).
    destruct (Hrec _ (OC k p (or_introl eq_refl)) _ _ _ H1) as (G1 & M & R). destruct (IH (fun k' p' I => OC k' p' (or_intror I)) _ _ _ _ H) as (G2 & A & B & K).
    split; [eapply grows_trans; eauto|]. split; [|split].
    + intros q t I. destruct (A q t I) as [I2|(k2 & p2 & I2 & U2 & M2)].
      * destruct (in_oset_inv _ _ _ _ _ I2) as [[-> ->]|I3]; auto. right. exists k, p. split; [now left|]. split; auto. split; auto.
        intros z Z. eapply ok_ref_grows; [exact G2|auto].
      * right. exists k2, p2. split; [now right|auto].
    + intros k2 p2 [I|I]; [|exact (B k2 p2 I)]. inversion I; subst. destruct (K k' y (in_oset _ _ _)) as (t' & T). exists k', t'. auto.
    + intros q t I. destruct (in_oset_key k' y acc q t I) as (z & Z). eapply K; eauto.
Qed.

Lemma wrap_good a b d x d' : occurs h a0 a -> get_base h a = Some b -> (forall hd, b_shape b <> Some (SRec hd)) -> wrap_base E rec b d = Ok (x, d') ->
  grows d d' /\ forall s, In s (map snd (entries (snd (fst x)))) -> refs_ok s d'.
Proof.
  intros OC G NR H. unfold wrap_base in H. apply cbind_ok in H. destruct H as (fd & d0 & H0 & H). apply cread_ok in H0. destruct H0 as [Fd ->].
  apply cbind_ok in H. destruct H as (fs & d1 & H1 & H). apply cbind_ok in H. destruct H as (fv & d2 & H2 & H).
  apply cread_ok in H2. destruct H2 as [_ ->]. apply cret_ok in H. destruct H as [-> ->].
  assert (OCf : forall k p, In (k, p) fd -> occurs h a0 (p_base p)).
  { intros k p I. eapply oc_visit; [exact OC|]. eapply vi_facet; eauto. }
  destruct (cmap_good _ OCf _ _ _ H1) as (Gg & _ & R). split; auto. simpl. destruct fs; simpl in *; auto.
Qed.

Lemma map_good o d r d' : (forall l k p, props_of h o l -> In (k, p) l -> occurs h a0 (p_base p)) -> visit_map E rec o d = Ok (r, d') ->
  grows d d' /\ (o = None <-> r = None)
  /\ (exists l, props_of h o l /\ Forall2 (fun kp ks => fst kp = fst ks /\ mirrors (p_base (snd kp)) (snd ks)) l (entries r))
  /\ forall s, In s (map snd (entries r)) -> refs_ok s d'.
Proof.
  intros OC. unfold visit_map. destruct o as [m|]; intros H.
  - apply cbind_ok in H. destruct H as (l & d0 & H0 & H). apply cread_ok in H0. destruct H0 as [G0 ->].
    apply cbind_ok in H. destruct H as (r0 & d1 & H1 & H). apply cret_ok in H. destruct H as [-> ->].
    destruct (cmap_good l (fun k p I => OC l k p (or_intror (ex_intro _ m (conj eq_refl G0))) I) _ _ _ H1) as (G & F & R). split; auto. split; [split; discriminate|]. split; auto.
    exists l. split; auto. right. eauto.
  - apply cret_ok in H. destruct H as [-> ->]. split; [apply grows_refl|]. split; [tauto|]. split; [|intros s []].
    exists []. split; [now left|constructor].
Qed.

Lemma node_refs k an its ps pps x d : k_ref k = "" -> (forall s, In s an -> refs_ok s d) -> refs_ok its d ->
  (forall s, In s (map snd (entries ps)) -> refs_ok s d) -> (forall s, In s (map snd (entries pps)) -> refs_ok s d) ->
  (forall s, In s (map snd (entries (snd (fst x)))) -> refs_ok s d) ->
  refs_ok (node_with k an its ps pps x) d.
Proof.
  intros K A B C0 D X r R. apply refers_iff in R. destruct R as [N [R|(t & I & R)]].
  - simpl in R. congruence.
  - unfold node_with, below_schema in I. simpl map in I. rewrite !in_app_iff in I.
    destruct I as [I|[I|[I|[I|[I|[I|[I|I]]]]]]]; try (destruct I; fail).
    + apply (A t I r R).
    + destruct I as [<-|[<-|[<-|[<-|[<-|[<-|[]]]]]]]; try (exfalso; exact (refers_null _ R)). apply (B r R).
    + apply (C0 t I r R).
    + apply (D t I r R).
    + apply (X t I r R).
Qed.

Lemma refs_mono s d d' : grows d d' -> refs_ok s d -> refs_ok s d'.
Proof. intros G R q Q. eapply ok_ref_grows; [exact G|auto]. Qed.

Lemma null_refs d : refs_ok Null d.
Proof. intros r R. destruct (refers_null _ R). Qed.

Lemma leaf_ref sh b k : leaf_kw sh (meta b) = Some k -> k_ref k = "".
Proof.
  destruct sh as [| |f|f|f|f|e|f| | | |f|f|sl e|raw| |hd]; simpl; intros H; try discriminate; try (injection H as <-; reflexivity).
  - injection H as <-. destruct (sf_pat f); reflexivity.
  - destruct (ff_types f) as [[|[] ?]|]; try discriminate; injection H as <-; reflexivity.
  - injection H as <-. destruct f as [x|]; [|reflexivity]. destruct (String.eqb x "rfc3339"); [reflexivity|].
    destruct (String.eqb x "rfc2616"); reflexivity.
Qed.

Lemma visit_leaf_good a b sh g : occurs h a0 a -> (forall hd, sh <> SRec hd) -> get_base h a = Some b -> b_shape b = Some sh -> leaf_kw sh (meta b) = Some (g (meta b)) ->
  good (visit_leaf E rec b g) (mirrors a).
Proof.
  intros OC NR G Sh K d s d' H. unfold visit_leaf in H. apply cbind_ok in H. destruct H as (x & d1 & H1 & H).
  apply cret_ok in H. destruct H as [-> ->]. assert (NR' : forall hd, b_shape b <> Some (SRec hd)) by (intros hd; rewrite Sh; injection 1; apply NR).
  destruct (wrap_good _ _ _ _ _ OC G NR' H1) as (Gr & R). split; auto.
  split; [eapply mi_leaf; eauto|]. apply node_refs; auto using null_refs; try (intros ? []). eapply leaf_ref; eauto.
Qed.

Lemma visit_body_good a : occurs h a0 a -> good (visit_body E rec a) (mirrors a).
Proof.
  intros OC d s d' H. unfold visit_body in H. apply cbind_ok in H. destruct H as (b & d0 & H0 & H).
  apply cread_ok in H0. destruct H0 as [G ->]. fold h in G.
  destruct (b_shape b) as [sh|] eqn:Sh; [|apply cret_ok in H; destruct H as [-> ->]; split; [apply grows_refl|];
    split; [eapply mi_none; eauto|apply null_refs]].
  destruct sh as [| |f|f|f|f|e|f| | | |f|f|sl e|raw| |hd];
    try (eapply (visit_leaf_good a b); [exact OC| |exact G|exact Sh| |exact H]; [discriminate|reflexivity]);
    try assert (NR : forall hd, b_shape b <> Some (SRec hd)) by (rewrite Sh; discriminate);
    assert (Sa : shape_at h a _) by (exists b; split; [exact G|exact Sh]).
  - (* file *)
    unfold visit_file in H. apply cbind_ok in H. destruct H as (x & d1 & H1 & H). destruct (wrap_good _ _ _ _ _ OC G NR H1) as (Gr & R).
    assert (K : forall m, (ff_types f = None /\ m = "" \/ exists l, ff_types f = Some (GStr m :: l)) ->
       cret (node_with (with_content "base64" m (with_length (ff_min f) (ff_max f) (with_type "string" (meta b)))) [] Null None None x) d1 = Ok (s, d') ->
       grows d d' /\ mirrors a s /\ refs_ok s d').
    { intros m T H2. apply cret_ok in H2. destruct H2 as [-> ->]. split; auto. split.
      - eapply mi_leaf; [exact G|exact Sh|]. simpl. destruct T as [[-> ->]|(l & ->)]; reflexivity.
      - apply node_refs; auto using null_refs; try (intros ? []). }
    destruct (ff_types f) as [[|[] ?]|] eqn:T; try discriminate H; [eapply K; [right; eexists; reflexivity|exact H]|eapply K; [left; auto|exact H]].
  - (* array *)
    unfold visit_array in H. apply cbind_ok in H. destruct H as (x & d1 & H1 & H). destruct (wrap_good _ _ _ _ _ OC G NR H1) as (Gr & R).
    apply cbind_ok in H. destruct H as (i & d2 & H2 & H). apply cret_ok in H. destruct H as [-> ->].
    destruct (a_items f) as [ia|] eqn:Ia.
    + assert (OCi : occurs h a0 ia) by (eapply oc_visit; [exact OC|]; eapply vi_child; [exact Sa|discriminate|now constructor]).
      destruct (Hrec _ OCi _ _ _ H2) as (G2 & M & R2). split; [eapply grows_trans; eauto|]. split; [eapply mi_array; eauto|].
      apply node_refs; auto; try (intros ? []). intros t I. eapply refs_mono; [exact G2|auto].
    + apply cret_ok in H2. destruct H2 as [-> ->]. split; auto. split; [eapply mi_array; eauto|].
      apply node_refs; auto using null_refs; try (intros ? []).
  - (* object *)
    unfold visit_object in H. apply cbind_ok in H. destruct H as (x & d1 & H1 & H). destruct (wrap_good _ _ _ _ _ OC G NR H1) as (Gr & R).
    apply cbind_ok in H. destruct H as (ps & d2 & H2 & H). 
    assert (OCp : forall l k p, props_of h (o_props f) l -> In (k, p) l -> occurs h a0 (p_base p)).
    { intros l k p L I. eapply oc_visit; [exact OC|]. eapply vi_child; [exact Sa|discriminate|]. eapply ch_prop; eauto. }
    assert (OCq : forall l k p, props_of h (o_pprops f) l -> In (k, p) l -> occurs h a0 (p_base p)).
    { intros l k p L I. eapply oc_visit; [exact OC|]. eapply vi_child; [exact Sa|discriminate|]. eapply ch_pprop; eauto. }
    destruct (map_good _ _ _ _ OCp H2) as (G2 & N2 & (l & L & F2) & R2).
    apply cbind_ok in H. destruct H as (req & d3 & H3 & H).
    assert (Q : req = required_names l /\ d3 = d2).
    { destruct (o_props f) as [m|] eqn:Om.
      - apply cbind_ok in H3. destruct H3 as (l' & d4 & H4 & H3). apply cread_ok in H4. destruct H4 as [G4 ->].
        apply cret_ok in H3. destruct H3 as [-> ->]. split; auto. f_equal. destruct L as [[? ?]|(m' & E1 & E2)]; [congruence|].
        injection E1 as <-. unfold h in E2. congruence.
      - apply cret_ok in H3. destruct H3 as [-> ->]. destruct L as [[_ ->]|(m' & E1 & E2)]; [auto|discriminate]. }
    destruct Q as [-> ->].
    apply cbind_ok in H. destruct H as (pps & d4 & H4 & H). apply cret_ok in H. destruct H as [-> ->].
    assert (Q : grows d2 d4 /\ (o_pprops f = None <-> pps = None) /\ exists pl, props_of h (o_pprops f) pl
       /\ (forall q t, In (q, t) (entries pps) -> exists k p, In (k, p) pl /\ unslash k = Some q /\ mirrors (p_base p) t /\ refs_ok t d4)
       /\ (forall k p, In (k, p) pl -> exists q t, unslash k = Some q /\ In (q, t) (entries pps))).
    { destruct (o_pprops f) as [m|] eqn:Om.
      - apply cbind_ok in H4. destruct H4 as (pl & d5 & H5 & H4). apply cread_ok in H5. destruct H5 as [G5 ->].
        apply cbind_ok in H4. destruct H4 as (r & d5 & H6 & H4). apply cret_ok in H4. destruct H4 as [-> ->].
        destruct (patterns_good _ (fun k p I => OCq pl k p (or_intror (ex_intro _ m (conj eq_refl G5))) I) _ _ _ _ H6) as (G6 & A & B & _). split; auto. split; [split; discriminate|].
        exists pl. split; [right; eauto|]. split; [|exact B]. intros q t I. destruct (A q t I) as [[]|A']. exact A'.
      - apply cret_ok in H4. destruct H4 as [-> ->]. split; [apply grows_refl|]. split; [tauto|].
        exists []. split; [now left|]. split; [intros ? ? []|intros ? ? []]. }
    destruct Q as (G4 & N4 & pl & PL & A & B).
    split; [eapply grows_trans; [exact Gr|eapply grows_trans; eauto]|]. split.
    + eapply mi_object; [exact G|exact Sh|exact L|exact PL|exact N2|exact N4|exact F2| |exact B].
      intros q t I. destruct (A q t I) as (k & p & I1 & I2 & I3 & _). eauto.
    + apply node_refs; auto using null_refs; try (intros ? []).
      * intros t I. eapply refs_mono; [exact G4|auto].
      * intros t I. apply in_map_iff in I. destruct I as ([q t'] & <- & I). destruct (A q t' I) as (k & p & _ & _ & _ & R4). exact R4.
      * intros t I. eapply refs_mono; [exact G4|]. eapply refs_mono; [exact G2|auto].
  - (* union *)
    unfold visit_union in H. apply cbind_ok in H. destruct H as (x & d1 & H1 & H). destruct (wrap_good _ _ _ _ _ OC G NR H1) as (Gr & R).
    apply cbind_ok in H. destruct H as (l & d2 & H2 & H). apply cread_ok in H2. destruct H2 as [Gl ->].
    apply cbind_ok in H. destruct H as (ms & d3 & H3 & H). apply cret_ok in H. destruct H as [-> ->].
    
    assert (OCm : forall p, In p l -> occurs h a0 p).
    { intros p I. eapply oc_visit; [exact OC|]. eapply vi_child; [exact Sa|discriminate|]. eapply ch_member; eauto. }
    destruct (clist_good _ OCm _ _ _ H3) as (G3 & F & R3). split; [eapply grows_trans; eauto|]. split; [eapply mi_union; eauto|].
    apply node_refs; auto using null_refs; try (intros ? []). intros t I. eapply refs_mono; [exact G3|auto].
  - (* json *)
    unfold visit_json in H. apply cbind_ok in H. destruct H as (x & d1 & H1 & H). destruct (wrap_good _ _ _ _ _ OC G NR H1) as (Gr & R).
    destruct (recast (c_json E raw)) as [|k ds al an on nt it th el its ps pps pn aa ff xx] eqn:Rc; [discriminate|].
    apply cret_ok in H. destruct H as [-> ->]. split; auto. split.
    + eapply (mi_json a raw); [exists b; auto|discriminate].
    + clear NR. assert (NR : forall r, ~ refers (recast (c_json E raw)) r) by (intros r X; exact (json_refs a raw r OC Sa (recast_refers _ _ X))).
      rewrite Rc in NR. intros r X. apply refers_iff in X. destruct X as [N [X|(t & I & X)]].
      * exfalso. apply (NR r). apply refers_iff. split; auto.
      * unfold below_schema in I. rewrite !in_app_iff in I.
        assert (Bad : In t (below_schema (Sch k ds al an on nt it th el its ps pps pn None None None)) -> False).
        { intros J. apply (NR r). apply refers_iff. split; auto. right. exists t. split; auto.
          assert (Z : ~ In t (map snd (entries (@None (list (string * schema)))))) by (intros []).
          unfold below_schema in *. rewrite !in_app_iff in *. tauto. }
        unfold below_schema in Bad. rewrite !in_app_iff in Bad.
        destruct I as [I|[I|[I|[I|[I|[I|[I|I]]]]]]]; try (exfalso; apply Bad; tauto). apply (R t I r X).
  - (* unknown *)
    apply cret_ok in H. destruct H as [-> ->]. split; [apply grows_refl|]. split; [eapply mi_none; eauto|apply null_refs].
  - (* recursive *)
    unfold visit_recursive in H. apply cbind_ok in H. destruct H as (hb & d0 & H0 & H). apply cread_ok in H0. destruct H0 as [Gh ->].
    apply cbind_ok in H. destruct H as (sh & d0 & H0 & H). apply cread_ok in H0. destruct H0 as [Shh ->].
    apply cbind_ok in H. destruct H as (seen & d0 & H0 & H). unfold defined in H0. inversion H0; subst seen d0. clear H0.
    apply cbind_ok in H. destruct H as ([] & d1 & H1 & H). apply cret_ok in H. destruct H as [-> ->].
    assert (OCh : occurs h a0 hd) by (eapply oc_head; eauto).
    assert (M : mirrors a (leaf (with_ref (def_ref (b_name hb)) kw0))) by (eapply mi_rec; eauto).
    assert (RR : oget (b_name hb) d1 <> None -> refs_ok (leaf (with_ref (def_ref (b_name hb)) kw0)) d1).
    { intros D r R. apply refers_iff in R. destruct R as [N [R|(t & I & R)]].
      - simpl in R. subst r. exists (b_name hb). auto.
      - simpl in I. destruct I as [<-|[<-|[<-|[<-|[<-|[<-|[]]]]]]]; exfalso; exact (refers_null _ R). }
    destruct (oget (b_name hb) d) as [s0|] eqn:D0.
    + apply cret_ok in H1. destruct H1 as [_ ->]. split; [apply grows_refl|]. split; auto. apply RR. congruence.
    + apply cbind_ok in H1. destruct H1 as ([] & d2 & H2 & H1). unfold define in H2. inversion H2; subst d2. clear H2.
      apply cbind_ok in H1. destruct H1 as (s1 & d2 & H2 & H1). unfold define in H1. inversion H1; subst d1. clear H1.
      destruct (Hrec _ OCh _ _ _ H2) as (G2 & M2 & R2).
      assert (Grow : forall n, n <> b_name hb -> oget n (oset (b_name hb) s1 d2) = oget n d2).
      { intros n N. rewrite oget_oset. apply String.eqb_neq in N. now rewrite N. }
      assert (OK2 : forall q, ok_ref d2 q -> ok_ref (oset (b_name hb) s1 d2) q).
      { intros q (n & -> & D). exists n. split; auto. rewrite oget_oset. destruct (String.eqb n (b_name hb)); [discriminate|auto]. }
      assert (Hm : oget (b_name hb) (oset (b_name hb) s1 d2) = Some s1) by (rewrite oget_oset, String.eqb_refl; auto).
      split; [|split; [auto|apply RR; congruence]].
      split.
      * intros n s2 K. assert (N : n <> b_name hb) by congruence. rewrite (Grow n N). apply (gr_keep _ _ G2).
        rewrite oget_oset. apply String.eqb_neq in N. now rewrite N.
      * intros n s2 K. destruct (String.eqb n (b_name hb)) eqn:Nn.
        -- apply String.eqb_eq in Nn. subst n. rewrite Hm in K. injection K as <-. right. exists a, hd, hb.
           fold h in Gh. split; auto. split; auto. split; auto. split; [congruence|]. split; auto.
        -- pose proof Nn as Nn2. apply String.eqb_neq in Nn. rewrite (Grow n Nn) in K.
           destruct (gr_new _ _ G2 _ _ K) as [K2|(r & hd2 & hb2 & A0 & A1 & A2 & A3 & A4 & A5 & A6)].
           ++ rewrite oget_oset, Nn2 in K2. auto.
           ++ right. exists r, hd2, hb2. repeat (split; auto).
      * intros N. apply Yaml_proofs.oset_keys, (gr_nodup _ _ G2), Yaml_proofs.oset_keys, N.
Qed.
End Body.

Theorem visit_good n a : occurs h a0 a -> good (visit n E a) (mirrors a).
Proof.
  revert a. induction n as [|n IH]; intros a OC; [intros d s d' H; discriminate|].
  change (visit (S n) E a) with (visit_body E (visit n E) a). now apply visit_body_good.
Qed.

(** The result of Convert. *)
Theorem convert_good n S0 : convert n true E a0 = Ok S0 -> exists b s d,
  get_base h a0 = Some b /\ b_shape b <> None /\ b_unwrapped b = true
  /\ S0 = Sch (Kw schema_version "" (def_ref (b_name b)) "" None "" None GNil None None None
               None None "" None None None None None None None [] "" "" "" "" "" GNil [])
         d [] [] [] Null Null Null Null Null None None Null None None None
  /\ oget (b_name b) d = Some s /\ mirrors a0 s /\ refs_ok s d
  /\ NoDup (map fst d) /\ forall n s', oget n d = Some s' -> n = b_name b /\ s' = s
       \/ exists r hd hb, occurs h a0 r /\ shape_at h r (SRec hd) /\ get_base h hd = Some hb /\ b_shape hb <> None /\ b_name hb = n /\ mirrors hd s'
            /\ refs_ok s' d.
Proof.
  unfold convert. fold h. destruct (get_base h a0) as [b|] eqn:G; [|discriminate].
  destruct (b_shape b) as [sh|] eqn:Sh; [|discriminate]. destruct (b_unwrapped b) eqn:U; [|discriminate]. simpl negb. cbn iota.
  destruct (cbind _ _ _) as [[[] d]| | |] eqn:R; try discriminate. intros H. injection H as <-.
  apply cbind_ok in R. destruct R as ([] & d1 & R1 & R). unfold define in R1. inversion R1; subst d1. clear R1.
  apply cbind_ok in R. destruct R as (s & d1 & R1 & R). unfold define in R. inversion R; subst d. clear R.
  destruct (visit_good _ _ (oc_refl h a0) _ _ _ R1) as (Gr & M & Rf).
  assert (OK2 : forall q, ok_ref d1 q -> ok_ref (oset (b_name b) s d1) q).
  { intros q (n0 & -> & D). exists n0. split; auto. rewrite oget_oset. destruct (String.eqb n0 (b_name b)); [discriminate|auto]. }
  exists b, s, (oset (b_name b) s d1). split; auto. split; [congruence|]. split; auto. split; auto.
  split; [rewrite oget_oset, String.eqb_refl; auto|]. split; auto. split; [intros q Q; apply OK2; auto|].
  split; [apply Yaml_proofs.oset_keys, (gr_nodup _ _ Gr); repeat constructor; intros []|].
  intros n0 s' K. rewrite oget_oset in K. destruct (String.eqb n0 (b_name b)) eqn:N.
  - apply String.eqb_eq in N. injection K as <-. auto.
  - right. destruct (gr_new _ _ Gr _ _ K) as [K2|(r & hd2 & hb2 & A0 & A1 & A2 & A3 & A4 & A5 & A6)].
    + simpl in K2. rewrite N in K2. discriminate.
    + exists r, hd2, hb2. repeat (split; auto). intros q Q. apply OK2. auto.
Qed.
End Mirrors.
