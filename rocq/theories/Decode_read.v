(** Decoding a declaration gives a type as written (C62): the entries of the
    declaration, the type and the facets. *)
From Coq Require Import ZArith List String Bool Ascii Lia.
From Verif Require Import Base Scalars Heap Rdt Resolve Names Spec_Names Yaml Spec_Yaml Yaml_proofs Pipeline Spec_Resolve Spec_Model
  Decode Parse Spec_Parse Spec_Decode Parse_ends Heap_lemmas Parse_fresh Decode_says.
From Verif Require Names_proofs.
Import ListNotations.
Open Scope string_scope.
Open Scope list_scope.
Open Scope nat_scope.

(** * Single steps *)

(** One cell has a new content, nothing else changes. *)
Record change (a : addr) (c : cell) (p p' : pst) : Prop := {
  c_new : nth_error (H_ p') a = Some c;
  c_old : forall z, z <> a -> nth_error (H_ p') z = nth_error (H_ p) z;
  c_len : len p' = len p;
  c_fn : p_facets p' = p_facets p;
  c_exts : p_exts p' = p_exts p;
  c_stays : stays p p'
}.

Lemma change_edit (W : addr -> Prop) n a c p p' : change a c p p' -> n <= len p -> (a < n -> W a) -> edit W n p p'.
Proof.
  intros [A B C D X S] L Wa. split; auto; try lia.
  - intros z Lz N. apply B. intros ->. auto.
  - intros z _ _. now rewrite D.
  - exists []. now rewrite X, app_nil_r.
Qed.

(** A cell may become another one. *)
Definition alike (c0 c : cell) : Prop :=
  match c0 with CDT _ => c = c0 | CBase b0 => exists b, c = CBase b /\ b_loc b = b_loc b0 | _ => True end.
Lemma alike_facets p a m c : get_facets (H_ p) a = Some m -> forall c0, nth_error (H_ p) a = Some c0 -> alike c0 c.
Proof. intros G c0 N. apply get_facets_nth in G. rewrite G in N. injection N as <-. exact Logic.I. Qed.
Lemma alike_slice p a l c : get_slice (H_ p) a = Some l -> forall c0, nth_error (H_ p) a = Some c0 -> alike c0 c.
Proof. unfold get_slice. intros G c0 N. rewrite N in G. destruct c0; try discriminate. exact I. Qed.
Lemma alike_base p a b0 b : get_base (H_ p) a = Some b0 -> b_loc b = b_loc b0 -> forall c0, nth_error (H_ p) a = Some c0 -> alike c0 (CBase b).
Proof. intros G Q c0 N. apply get_base_nth in G. rewrite G in N. injection N as <-. cbn. eauto. Qed.
Lemma write_change a c p u p' : a < len p -> (forall c0, nth_error (H_ p) a = Some c0 -> alike c0 c) -> hp (Heap.write a c) p = (Ok u, p') -> change a c p p'.
Proof.
  intros L Al H. apply hp_ok in H. destruct H as (s' & H & ->). unfold Heap.write in H. injection H as _ <-.
  assert (N : exists c0, nth_error (H_ p) a = Some c0).
  { destruct (nth_error (H_ p) a) eqn:Q; eauto. apply nth_error_None in Q. unfold len in L. lia. }
  destruct N as (c0 & N). split; cbn; auto.
  - unfold H_. cbn. eapply nth_error_upd_eq; eauto.
  - intros z D. unfold H_. cbn. now rewrite nth_error_upd_neq by auto.
  - unfold len, H_. cbn. apply upd_length.
  - specialize (Al c0 N). split; [apply incl_refl|auto| |]; unfold H_ in *; cbn.
    + intros l o Nl. destruct (Nat.eq_dec l a) as [->|D].
      * rewrite N in Nl. injection Nl as ->. cbn in Al. subst c. eapply nth_error_upd_eq; eauto.
      * now rewrite nth_error_upd_neq by auto.
    + intros x b G. apply get_base_nth in G. destruct (Nat.eq_dec x a) as [->|D].
      * rewrite N in G. injection G as ->. destruct Al as (b' & -> & Q). exists b'. split; auto. apply get_base_nth. eapply nth_error_upd_eq; eauto.
      * exists b. split; auto. apply get_base_nth. now rewrite nth_error_upd_neq by auto.
Qed.

Lemma upd_change a f p u p' : hp (upd_base a f) p = (Ok u, p') -> (forall b, get_base (H_ p) a = Some b -> b_loc (f b) = b_loc b) ->
  exists b, get_base (H_ p) a = Some b /\ change a (CBase (f b)) p p' /\ get_base (H_ p') a = Some (f b).
Proof.
  intros H Fl. apply hp_ok in H. destruct H as (s' & H & ->). apply upd_base_ok in H. destruct H as (b & G & W).
  exists b. split; auto.
  assert (C : change a (CBase (f b)) p (with_st p s')).
  { apply (write_change a _ p tt); [exact (base_lt _ _ _ G)|intros c0 N; apply get_base_nth in G; unfold H_ in N; rewrite G in N; injection N as <-; cbn; exists (f b); split; [reflexivity|apply Fl, get_base_nth, G]|]. unfold hp. rewrite W. reflexivity. }
  split; auto. apply get_base_nth. exact (c_new _ _ _ _ C).
Qed.

Lemma alloc_app c p x p' : hp (alloc c) p = (Ok x, p') ->
  x = len p /\ len p' = S (len p) /\ app p p' /\ nth_error (H_ p') x = Some c /\ p_facets p' = p_facets p /\ p_exts p' = p_exts p.
Proof.
  intros H. apply hp_ok in H. destruct H as (s' & H & ->). unfold alloc in H. injection H as <- <-.
  assert (L : len (with_st p (St (heap (p_st p) ++ [c]) (st_shapes (p_st p)) (st_nextid (p_st p)))) = S (len p)).
  { unfold len, H_. cbn. rewrite app_length. cbn. lia. }
  split; [reflexivity|]. split; [exact L|]. split; [|split; [|split; reflexivity]].
  - split; auto; try lia.
    + intros z Lz _. unfold H_. cbn. now rewrite nth_error_app1 by exact Lz.
    + exists []. cbn. now rewrite app_nil_r.
    + apply stays_cells; [reflexivity|]. intros z Lz. unfold H_. cbn. now rewrite nth_error_app1 by exact Lz.
  - unfold H_. cbn. apply nth_error_snoc.
Qed.

Lemma props_change m k pr p u p' : hp (props_set m k pr) p = (Ok u, p') ->
  exists l, get_props (H_ p) m = Some l /\ change m (CProps (oset k pr l)) p p' /\ get_props (H_ p') m = Some (oset k pr l).
Proof.
  intros H. apply hp_ok in H. destruct H as (s' & H & ->). unfold props_set in H. apply bind_inv in H.
  destruct H as (l & s1 & R & W). apply rd_ok in R. destruct R as [-> G]. exists l. split; auto.
  assert (C : change m (CProps (oset k pr l)) p (with_st p s')).
  { apply (write_change m _ p tt).
    - apply get_props_nth in G. eapply nth_error_lt; eauto.
    - intros c0 N. apply get_props_nth in G. unfold H_ in N. rewrite G in N. injection N as <-. exact Logic.I.
    - unfold hp. destruct u. rewrite W. reflexivity. }
  split; auto. apply get_props_nth. exact (c_new _ _ _ _ C).
Qed.

(** ** Without the heap *)

Definition stills {A} (m : D A) : Prop := forall p r p', m p = (r, p') -> still p p'.

Lemma stills_lift {A} (r : res A) : stills (dlift r).
Proof. intros p r' p' H. injection H as _ <-. apply still_refl. Qed.
Lemma stills_ret {A} (a : A) : stills (dret a).
Proof. intros p r' p' H. injection H as _ <-. apply still_refl. Qed.
Lemma stills_get : stills dget.
Proof. intros p r' p' H. injection H as _ <-. apply still_refl. Qed.
Lemma stills_ext e : stills (put_ext e).
Proof. intros p r' p' H. injection H as _ <-. apply still_easy; cbn; eauto. Qed.
Lemma stills_type n l a : stills (put_type n l a).
Proof. intros p r' p' H. injection H as _ <-. apply still_easy; cbn; auto. exists []. now rewrite app_nil_r. Qed.
Lemma stills_annot n l a : stills (put_annot n l a).
Proof. intros p r' p' H. injection H as _ <-. apply still_easy; cbn; auto. exists []. now rewrite app_nil_r. Qed.
Lemma stills_todo a : stills (put_todo a).
Proof. intros p r' p' H. injection H as _ <-. apply still_easy; cbn; auto. exists []. now rewrite app_nil_r. Qed.
Lemma stills_bind {A B} (m : D A) (f : A -> D B) : stills m -> (forall a, stills (f a)) -> stills (dbind m f).
Proof.
  intros Hm Hf p r p' H. unfold dbind in H. destruct (m p) as [[a| | |] p1] eqn:Q; pose proof (Hm _ _ _ Q) as X.
  - eapply still_trans; [exact X|]. eapply Hf; eauto.
  - injection H as _ <-. exact X.
  - injection H as _ <-. exact X.
  - injection H as _ <-. exact X.
Qed.

Lemma stills_make_ext E loc k v : stills (make_ext E loc k v).
Proof.
  unfold make_ext. destruct (String.eqb _ _); [apply stills_lift|].
  apply stills_bind; [apply stills_lift|]. intros x. apply stills_bind; [apply stills_get|]. intros p.
  apply stills_bind; [apply stills_ext|]. intros. apply stills_ret.
Qed.
Lemma stills_entries E loc l : stills (example_entries E loc l).
Proof.
  induction l as [| |k v l IH] using pair_induction; [apply stills_ret|apply stills_lift|].
  cbn [example_entries]. apply stills_bind; [|intros; exact IH].
  destruct (String.eqb _ _); [apply stills_lift|].
  destruct (_ || _); [apply stills_lift|].
  destruct (is_annotation _); [|apply stills_ret]. apply stills_bind; [apply stills_make_ext|intros; apply stills_ret].
Qed.
Lemma stills_example E loc v : stills (example E loc v).
Proof.
  unfold example. destruct (y_kind v); try apply stills_lift.
  apply stills_bind; [apply stills_lift|]. intros [x|]; [|apply stills_lift].
  apply stills_bind; [apply stills_entries|]. intros. apply stills_lift.
Qed.
Lemma stills_example_map E loc l : forall m, stills (example_map E loc l m).
Proof.
  induction l as [| |k v l IH] using pair_induction; intros m; [apply stills_ret|apply stills_lift|].
  cbn [example_map]. apply stills_bind; [apply stills_example|]. intros. apply IH.
Qed.

(** * Values *)

Section Read.
Variable E : denv.

Lemma make_ext_read loc k v p r p' : make_ext E loc k v p = (Ok r, p') ->
  r = (inner k, Z.of_nat (List.length (p_exts p))) /\ p_st p' = p_st p /\ p_facets p' = p_facets p
  /\ exists x, value_of E loc v x /\ p_exts p' = p_exts p ++ [Ext (inner k) loc x None].
Proof.
  unfold make_ext. destruct (String.eqb (inner k) ""); [discriminate|]. intros H.
  apply dbind_inv in H. destruct H as (x & p1 & H1 & H). apply dlift_inv in H1. destruct H1 as [R ->].
  apply dbind_inv in H. destruct H as (q & p1 & H1 & H). unfold dget in H1. injection H1 as <- <-.
  apply dbind_inv in H. destruct H as (u & p1 & H1 & H). unfold put_ext in H1. injection H1 as _ <-.
  apply dret_inv in H. destruct H as [-> ->]. cbn. split; auto. split; auto. split; auto. exists x. split; auto. now apply root_node_sound.
Qed.

Lemma value_entry_find l o : value_entry l = Ok o ->
  o = match find (fun kv => String.eqb (fst kv) "value") (pairs l) with Some (_, x) => Some x | None => None end.
Proof.
  induction l as [| |k v l IH] using pair_induction; cbn; try discriminate; [congruence|].
  destruct (String.eqb (y_value k) "value"); [congruence|exact IH].
Qed.

Lemma example_read loc v p d p' : example E loc v p = (Ok d, p') -> example_of E loc v d.
Proof.
  unfold example, example_of, entries. destruct (y_kind v) eqn:K; intros H;
    try (apply dlift_inv in H; destruct H as [H _]; cbn; now apply root_node_sound).
  apply dbind_inv in H. destruct H as (o & p1 & H1 & H). apply dlift_inv in H1. destruct H1 as [H1 ->]. apply value_entry_find in H1.
  destruct (find _ _) as [[k x]|]; subst o.
  - apply dbind_inv in H. destruct H as (u & p1 & _ & H). apply dlift_inv in H. destruct H as [H _]. now apply root_node_sound.
  - apply dlift_inv in H. destruct H as [H _]. now apply root_node_sound.
Qed.

Lemma example_map_read loc l : forall l0 m p m' p',
  filled (fun key x name d => name = key /\ example_of E loc x d) l0 m -> example_map E loc l m p = (Ok m', p') ->
  filled (fun key x name d => name = key /\ example_of E loc x d) (l0 ++ pairs l) m'.
Proof.
  induction l as [| |k v l IH] using pair_induction; intros l0 m p m' p' F H; cbn [example_map] in H.
  - apply dret_inv in H. destruct H as [-> _]. cbn. now rewrite app_nil_r.
  - discriminate.
  - apply dbind_inv in H. destruct H as (d & p1 & H1 & H). apply example_read in H1. cbn [pairs].
    replace (l0 ++ (y_value k, v) :: pairs l) with ((l0 ++ [(y_value k, v)]) ++ pairs l) by (now rewrite <- app_assoc).
    refine (IH _ _ p1 m' p' _ H). now constructor.
Qed.

Lemma seq_read loc l ds : seq_items (root_node (d_y E) loc) l = Ok ds -> Forall2 (value_of E loc) l ds.
Proof.
  revert ds. induction l as [|x l IH]; cbn; intros ds H; [injection H as <-; constructor|].
  destruct (root_node (d_y E) loc x) eqn:R; try discriminate. cbn in H. destruct (seq_items _ l); try discriminate. cbn in H. injection H as <-.
  constructor; auto. now apply root_node_sound.
Qed.
Lemma enum_read loc v e : make_enum E loc v = Ok e -> exists l, e = Some l /\ values_of E loc v l.
Proof.
  unfold make_enum, values_of. destruct (y_kind v); try discriminate. destruct (seq_items _ _) eqn:R; try discriminate. cbn. intros H. injection H as <-.
  eexists. split; eauto. split; auto. now apply seq_read.
Qed.
Lemma types_read loc l ds : file_types E loc l = Ok ds -> Forall2 (value_of E loc) l ds /\ Forall (fun x => y_tag x = "!!str") l.
Proof.
  revert ds. induction l as [|x l IH]; cbn; intros ds H; [injection H as <-; split; constructor|].
  destruct (String.eqb_spec (y_tag x) "!!str") as [T|]; [|discriminate].
  destruct (root_node (d_y E) loc x) eqn:R; try discriminate. cbn in H. destruct (file_types E loc l); try discriminate. cbn in H. injection H as <-.
  destruct (IH _ eq_refl) as [IH1 IH2]. split; constructor; auto. now apply root_node_sound.
Qed.

(** * Documentation, one entry more *)

Section Snoc.
Variables (p : pst) (R : rel) (kvs : list (string * ynode)) (name loc : string) (b : base) (v : ynode).
Hypothesis Do : documented E p R kvs name loc b.

Lemma annot_skip k : is_annotation k = false ->
  filter (fun kv => is_annotation (fst kv)) (kvs ++ [(k, v)]) = filter (fun kv => is_annotation (fst kv)) kvs.
Proof. intros N. rewrite filter_app. cbn. rewrite N. now rewrite app_nil_r. Qed.

Ltac other := unfold field, field_as in *; rewrite ?last_of_snoc; cbn [String.eqb Ascii.eqb Bool.eqb]; try rewrite annot_skip by reflexivity; auto.

Lemma doc_disp x : d_text E v = Some x -> documented E p R (kvs ++ [("displayName", v)]) name loc (set_disp x b).
Proof. intros Q. destruct Do. split; cbn [b_name b_loc b_disp b_desc b_required b_default b_example b_examples b_domain b_fdefs set_disp]; other. Qed.
Lemma doc_desc x : d_text E v = Some x -> documented E p R (kvs ++ [("description", v)]) name loc (set_desc x b).
Proof. intros Q. destruct Do. split; cbn [b_name b_loc b_disp b_desc b_required b_default b_example b_examples b_domain b_fdefs set_desc]; other. Qed.
Lemma doc_required x : d_bool E v = Some x -> documented E p R (kvs ++ [("required", v)]) name loc (set_required x b).
Proof. intros Q. destruct Do. split; cbn [b_name b_loc b_disp b_desc b_required b_default b_example b_examples b_domain b_fdefs set_required]; other. Qed.
Lemma doc_default x : value_of E loc v x -> documented E p R (kvs ++ [("default", v)]) name loc (set_default (Some x) b).
Proof. intros Q. destruct Do. split; cbn [b_name b_loc b_disp b_desc b_required b_default b_example b_examples b_domain b_fdefs set_default]; other; eauto. Qed.
Lemma doc_example x : b_examples b = None -> example_of E loc v x -> documented E p R (kvs ++ [("example", v)]) name loc (set_example (Some x) b).
Proof.
  intros N Q. destruct Do. split; cbn [b_name b_loc b_disp b_desc b_required b_default b_example b_examples b_domain b_fdefs set_example]; other; eauto.
  right. revert dc_examples. rewrite N. destruct (last_of "examples" kvs) as [n|]; [|reflexivity]. intros (x0 & K & _). discriminate K.
Qed.
Lemma doc_examples x : b_example b = None -> examples_of E loc v x -> documented E p R (kvs ++ [("examples", v)]) name loc (set_examples (Some x) b).
Proof.
  intros N Q. destruct Do. split; cbn [b_name b_loc b_disp b_desc b_required b_default b_example b_examples b_domain b_fdefs set_examples]; other; eauto.
  left. revert dc_example. rewrite N. destruct (last_of "example" kvs) as [n|]; [|reflexivity]. intros (x0 & K & _). discriminate K.
Qed.
Lemma doc_facets m l : get_props (H_ p) m = Some l -> filled (facet_def p R loc) (pairs (y_content v)) l ->
  documented E p R (kvs ++ [("facets", v)]) name loc (set_fdefs m b).
Proof. intros Q F. destruct Do. split; cbn [b_name b_loc b_disp b_desc b_required b_default b_example b_examples b_domain b_fdefs set_fdefs]; other; eauto. Qed.

Lemma doc_skip k : existsb (String.eqb k) documentation = false -> is_annotation k = false -> documented E p R (kvs ++ [(k, v)]) name loc b.
Proof.
  intros N A.
  assert (Nk : forall k', In k' documentation -> String.eqb k' k = false).
  { intros k' I. destruct (String.eqb_spec k' k) as [->|]; auto. assert (X : existsb (String.eqb k) documentation = true); [|congruence].
    apply existsb_exists. exists k. split; auto. apply String.eqb_refl. }
  destruct Do. split; auto; unfold field, field_as in *; rewrite ?last_of_snoc, ?Nk by (cbn; tauto); auto. now rewrite annot_skip.
Qed.
Lemma doc_allowed : documented E p R (kvs ++ [("allowedTargets", v)]) name loc b.
Proof. destruct Do. split; other. Qed.
End Snoc.

Lemma annot_name k : is_annotation k = true -> existsb (String.eqb k) documentation = false /\ String.eqb k "type" = false.
Proof.
  unfold is_annotation. destruct k as [|c k]; [discriminate|]. destruct (Ascii.eqb_spec c "("%char) as [->|]; [|discriminate]. intros _. split; reflexivity.
Qed.

Lemma doc_annot p R kvs name loc b v k i : documented E p R kvs name loc b -> is_annotation k = true -> annotation E p loc k v (inner k) i ->
  documented E p R (kvs ++ [(k, v)]) name loc (set_domain (oset (inner k) i (b_domain b)) b).
Proof.
  intros Do A An. destruct (annot_name k A) as [N _].
  assert (Nk : forall k', In k' documentation -> String.eqb k' k = false).
  { intros k' I. destruct (String.eqb_spec k' k) as [->|]; auto. assert (X : existsb (String.eqb k) documentation = true); [|congruence].
    apply existsb_exists. exists k. split; auto. apply String.eqb_refl. }
  destruct Do. split; cbn [b_name b_loc b_disp b_desc b_required b_default b_example b_examples b_domain b_fdefs set_domain];
    auto; unfold field, field_as in *; rewrite ?last_of_snoc, ?Nk by (cbn; tauto); auto.
  rewrite filter_app. cbn. rewrite A. now constructor.
Qed.

(** * Footprints *)

(** Cells from [n] on, except [X]. *)
Definition fo (n : nat) (X : addr -> Prop) (p : pst) (z : addr) : Prop := n <= z < len p /\ ~ X z.
Definition span (n m : nat) (z : addr) : Prop := n <= z < m.
(** A type and its maps and slices. *)
Definition body (a : addr) (b : base) (z : addr) : Prop := z = a \/ owns b z.

Lemma inside_edit (F W : addr -> Prop) n p p' : edit W n p p' -> (forall z, F z -> z < n /\ ~ W z) -> inside F p p'.
Proof.
  intros Ed FW. split.
  - intros z Fz _. destruct (FW z Fz). now apply (e_cells _ _ _ _ Ed).
  - intros z Fz. destruct (FW z Fz). now apply (e_fnodes _ _ _ _ Ed).
  - apply annots_app. exact (e_exts _ _ _ _ Ed).
  - exact (e_stays _ _ _ _ Ed).
Qed.

Lemma fo_carry n (X X' W : addr -> Prop) p p' : edit W (len p) p p' -> (forall z, W z -> X z) -> (forall z, z < len p -> X' z -> X z) ->
  carries (st E (fo n X p) p) (st E (fo n X' p') p') p p'.
Proof.
  intros Ed WX XX. apply st_carry.
  - apply (inside_edit _ W (len p)); auto. intros z [[_ L] N]. split; auto.
  - intros z [[A B] C]. pose proof (e_len _ _ _ _ Ed). split; [lia|]. intros Q. apply C. auto.
Qed.

(** A new type lies outside. *)
Lemma span_fo n (X : addr -> Prop) p p' v name loc x : n <= len p -> (forall z, X z -> z < len p) ->
  st E (span (len p) (len p')) p' v name loc x -> st E (fo n X p') p' v name loc x.
Proof.
  intros L Lx. apply st_wide. intros z [A B]. split; [lia|]. intros Q. specialize (Lx z Q). lia.
Qed.

Lemma same_owns b b' c : b_facets b' = b_facets b -> b_fdefs b' = b_fdefs b -> b_inherits b' = b_inherits b -> b_shape b' = b_shape b ->
  owns b c <-> owns b' c.
Proof. intros. split; apply owns_same; auto. Qed.

Section Shape.
Variable inc_dt : string -> D addr.
Variable inc_ne : string -> D unit.
Variable rec : ynode -> string -> string -> D addr.
Hypothesis Idt : forall path p u p', inc_dt path p = (Ok u, p') -> app p p'.
Hypothesis Ine : forall path p u p', inc_ne path p = (Ok u, p') -> app p p'.
Hypothesis Rec : forall v name loc p x p', rec v name loc p = (Ok x, p') -> app p p' /\ st E (span (len p) (len p')) p' v name loc x.

Lemma chomp_named key req nm r : make_property key (fst (chomp_optional key)) (snd (chomp_optional key)) req = DProp nm r -> named key req nm r.
Proof.
  unfold make_property, named. destruct (Names_proofs.chomp_dec key) as [(q & ->)|N].
  - rewrite Names_proofs.chomp_opt. cbn. destruct req; intros H; injection H as <- <-; auto. left. eauto.
  - rewrite (Names_proofs.chomp_plain _ N). cbn. destruct req; intros H; injection H as <- <-; auto.
Qed.

Lemma property_read loc key v p pr p' : property rec loc key v p = (Ok pr, p') ->
  app p p' /\ st E (span (len p) (len p')) p' v key loc (p_base pr)
  /\ exists xb, get_base (H_ p') (p_base pr) = Some xb /\ named key (b_required xb) (p_name pr) (p_req pr)
     /\ make_property key (fst (chomp_optional key)) (snd (chomp_optional key)) (b_required xb) = DProp (p_name pr) (p_req pr).
Proof.
  unfold property. destruct (chomp_optional key) as [name opt] eqn:C. intros H.
  apply dbind_inv in H. destruct H as (x & p1 & H1 & H). destruct (Rec _ _ _ _ _ _ H1) as [A S].
  apply dbind_inv in H. destruct H as (xb & p2 & H2 & H). apply rd_step in H2. destruct H2 as [-> G].
  destruct (make_property key name opt (b_required xb)) as [nm r|] eqn:M; [|discriminate].
  apply dret_inv in H. destruct H as [-> ->]. cbn. split; auto. split; auto. exists xb. split; auto. split; [|cbn; exact M].
  apply chomp_named. rewrite C. exact M.
Qed.

Lemma facet_defs_read m loc n (X : addr -> Prop) : forall l done p l0 u p', X m -> (forall z, X z -> z < len p) -> n <= len p ->
  get_props (H_ p) m = Some l0 -> filled (facet_def p (st E (fo n X p) p) loc) done l0 ->
  facet_defs rec m loc l p = (Ok u, p') ->
  edit (eq m) (len p) p p' /\ exists l1, get_props (H_ p') m = Some l1
    /\ filled (facet_def p' (st E (fo n X p') p') loc) (done ++ pairs l) l1.
Proof.
  induction l as [| |k v l IH] using pair_induction; intros done p l0 u p' Xm Lx Ln G F H; cbn [facet_defs] in H.
  - apply dret_inv in H. destruct H as [_ ->]. split; [now apply edit_refl|]. exists l0. cbn. now rewrite app_nil_r.
  - discriminate.
  - apply dbind_inv in H. destruct H as (pr & p1 & H1 & H). destruct (property_read _ _ _ _ _ _ H1) as (A & S & xb & Gx & Nm & _).
    pose proof (app_len _ _ A) as L1. apply dbind_inv in H. destruct H as (u1 & p2 & H2 & H).
    destruct (props_change _ _ _ _ _ _ H2) as (l1 & G1 & C2 & G2).
    assert (Lm : m < len p) by auto.
    assert (Q1 : l1 = l0). { rewrite (get_props_same (H_ p)) in G1; [congruence|]. apply (e_cells _ _ _ _ A); auto. } subst l1.
    assert (E2 : edit (eq m) (len p1) p1 p2) by (apply (change_edit _ _ m _ _ _ C2); auto).
    assert (E1 : edit (eq m) (len p) p p1) by (apply app_edit; auto).
    assert (E12 : edit (eq m) (len p) p p2). { eapply edit_trans; [exact E1|]. eapply edit_weak; [| |exact E2]; auto. }
    assert (Lx1 : forall z, X z -> z < len p1) by (intros z Q; specialize (Lx z Q); lia).
    assert (Lx2 : forall z, X z -> z < len p2) by (intros z Q; specialize (Lx1 z Q); rewrite (c_len _ _ _ _ C2); lia).
    destruct (IH (done ++ [(y_value k, v)]) p2 (oset (p_name pr) pr l0) u p') as [E3 (l2 & G3 & F3)]; auto.
    + rewrite (c_len _ _ _ _ C2). lia.
    + constructor.
      * eapply filled_weak; [|exact F]. intros k0 n0 nm0 pr0. apply facet_def_move. apply (fo_carry n X X (eq m)); auto. intros z <-. exact Xm.
      * apply (facet_def_move (st E (fo n X p1) p1) _ p1 p2).
        -- apply (fo_carry n X X (eq m)); auto. intros z <-. exact Xm.
        -- split; auto. split; [|eauto]. eapply span_fo; [| |exact S]; auto.
    + split; [eapply edit_trans; [exact E12|]; eapply edit_weak; [| |exact E3]; auto; rewrite (c_len _ _ _ _ C2); lia|].
      exists l2. split; auto. cbn [pairs]. now rewrite <- app_assoc in F3.
Qed.

(** ** The entries of a declaration *)

Record inv1 (n : nat) (a : addr) (name loc : string) (kvs : list (string * ynode)) (p : pst) (b : base) : Prop := {
  i1_base : get_base (H_ p) a = Some b;
  i1_a : n <= a;
  i1_own : forall c, owns b c -> n <= c < len p;
  i1_doc : documented E p (st E (fo n (body a b) p) p) kvs name loc b;
  i1_shape : b_shape b = None;
  i1_link : b_link b = None /\ b_alias b = None;
  i1_custom : get_facets (H_ p) (b_facets b) = Some [];
  i1_inh : get_slice (H_ p) (b_inherits b) = Some []
}.

Lemma inv1_lt n a name loc kvs p b : inv1 n a name loc kvs p b -> a < len p.
Proof. intros I. exact (base_lt _ _ _ (i1_base _ _ _ _ _ _ _ I)). Qed.

Lemma inv1_body n a name loc kvs p b z : inv1 n a name loc kvs p b -> body a b z -> z < len p.
Proof. intros I [->|O]; [eapply inv1_lt; eauto|]. apply (i1_own _ _ _ _ _ _ _ I z O). Qed.

Lemma inv1_app n a name loc kvs p b p' : inv1 n a name loc kvs p b -> app p p' -> inv1 n a name loc kvs p' b.
Proof.
  intros I A. pose proof (app_len _ _ A) as L. pose proof (inv1_lt _ _ _ _ _ _ _ I) as La. destruct I as [B Na O Dc S K C Ih].
  split; auto.
  - eapply app_base; eauto.
  - intros c Oc. specialize (O c Oc). lia.
  - refine (documented_move E _ _ p p' _ _ _ b b (fo_carry n _ _ none p p' A _ _) _ (same_doc_refl b) _ Dc); auto.
    + intros z [].
    + apply annots_app. exact (e_exts _ _ _ _ A).
    + intros m Gm. rewrite <- Gm. apply get_props_same. apply (e_cells _ _ _ _ A); [|intros []]. apply O. constructor.
  - rewrite <- C. apply get_facets_same. apply (e_cells _ _ _ _ A); [|intros []]. apply O. constructor.
  - rewrite <- Ih. apply get_slice_same. apply (e_cells _ _ _ _ A); [|intros []]. apply O. constructor.
Qed.

(** A change of the documentation of the type itself. *)
Lemma inv1_set n a name loc kvs kvs' p p' b b' : inv1 n a name loc kvs p b -> change a (CBase b') p p' ->
  b_facets b' = b_facets b -> b_fdefs b' = b_fdefs b -> b_inherits b' = b_inherits b -> b_shape b' = b_shape b -> b_link b' = b_link b -> b_alias b' = b_alias b ->
  (documented E p' (st E (fo n (body a b') p') p') kvs name loc b -> documented E p' (st E (fo n (body a b') p') p') kvs' name loc b') ->
  inv1 n a name loc kvs' p' b'.
Proof.
  intros I C Q1 Q2 Q3 Q4 Q5 Q6 Dd. pose proof (inv1_lt _ _ _ _ _ _ _ I) as La. destruct I as [B Na O Dc S K Cu Ih].
  assert (SO : forall c, owns b c <-> owns b' c) by (intros c; now apply same_owns).
  assert (Ne : forall c, nth_error (H_ p) c <> Some (CBase b) -> c <> a).
  { intros c N ->. apply N. now apply get_base_nth. }
  assert (Ed : edit (eq a) (len p) p p') by (apply (change_edit _ _ a _ _ _ C); auto).
  split; auto.
  - apply get_base_nth. exact (c_new _ _ _ _ C).
  - intros c Oc. apply SO in Oc. rewrite (c_len _ _ _ _ C). auto.
  - apply Dd. refine (documented_move E _ _ p p' _ _ _ b b (fo_carry n _ _ (eq a) p p' Ed _ _) _ (same_doc_refl b) _ Dc).
    + intros z <-. now left.
    + intros z _ [->|Oz]; [now left|]. right. now apply SO.
    + apply annots_app. exact (e_exts _ _ _ _ Ed).
    + intros m Gm. rewrite <- Gm. apply get_props_same. apply (c_old _ _ _ _ C). apply Ne. intros Q. unfold get_props in Gm. rewrite Q in Gm. discriminate.
  - congruence.
  - destruct K. split; congruence.
  - rewrite Q1. rewrite <- Cu. apply get_facets_same. apply (c_old _ _ _ _ C). apply Ne. intros Q. unfold get_facets in Cu. rewrite Q in Cu. discriminate.
  - rewrite Q3. rewrite <- Ih. apply get_slice_same. apply (c_old _ _ _ _ C). apply Ne. intros Q. unfold get_slice in Ih. rewrite Q in Ih. discriminate.
Qed.

Definition grew (n : nat) (p p' : pst) : Prop := edit none n p p'.

Lemma upd_inv1 n a name loc kvs kvs' p b f u p' : inv1 n a name loc kvs p b -> n <= len p -> hp (upd_base a f) p = (Ok u, p') ->
  b_facets (f b) = b_facets b -> b_fdefs (f b) = b_fdefs b -> b_inherits (f b) = b_inherits b -> b_shape (f b) = b_shape b -> b_link (f b) = b_link b -> b_alias (f b) = b_alias b -> b_loc (f b) = b_loc b ->
  (forall R, documented E p' R kvs name loc b -> documented E p' R kvs' name loc (f b)) ->
  (exists b', inv1 n a name loc kvs' p' b') /\ grew n p p'.
Proof.
  intros I Ln H Q1 Q2 Q3 Q4 Q5 Q6 Q7 Dd. destruct (upd_change _ _ _ _ _ H) as (b0 & G0 & C & _).
  { intros b0 G0. rewrite (i1_base _ _ _ _ _ _ _ I) in G0. injection G0 as <-. exact Q7. }
  rewrite (i1_base _ _ _ _ _ _ _ I) in G0. injection G0 as <-. split.
  - exists (f b). eapply inv1_set; eauto.
  - apply (change_edit _ _ a _ _ _ C); auto. pose proof (i1_a _ _ _ _ _ _ _ I). lia.
Qed.

Lemma grew_app n p p' : n <= len p -> app p p' -> grew n p p'.
Proof. intros L. now apply app_edit. Qed.
Lemma grew_trans n p1 p2 p3 : grew n p1 p2 -> grew n p2 p3 -> grew n p1 p3.
Proof. apply edit_trans. Qed.

Lemma examples_read a loc v n name kvs p b u p' : inv1 n a name loc kvs p b -> n <= len p ->
  decode_examples E inc_ne a loc v p = (Ok u, p') -> (exists b', inv1 n a name loc (kvs ++ [("examples", v)]) p' b') /\ grew n p p'.
Proof.
  intros I Ln H. unfold decode_examples in H. apply dbind_inv in H. destruct H as (b0 & p0 & H0 & H).
  apply rd_step in H0. destruct H0 as [-> G]. rewrite (i1_base _ _ _ _ _ _ _ I) in G. injection G as <-.
  destruct (b_example b) eqn:Eb; [discriminate|]. destruct (y_kind v) eqn:K; try discriminate.
  - apply dbind_inv in H. destruct H as (m & p1 & H1 & H).
    pose proof (still_app _ _ (stills_example_map E loc _ _ _ _ _ H1)) as A. pose proof (app_len _ _ A).
    pose proof (inv1_app _ _ _ _ _ _ _ _ I A) as I1.
    destruct (upd_inv1 n a name loc kvs (kvs ++ [("examples", v)]) p1 b (set_examples (Some m)) u p' I1) as [X Y]; try reflexivity; auto; try lia.
    + intros R Do. apply doc_examples; auto. left. split; auto. apply (example_map_read loc _ [] [] _ _ _ (fl_nil _) H1).
    + split; auto. eapply grew_trans; [apply grew_app; [|exact A]; auto|exact Y].
  - destruct (String.eqb_spec (y_tag v) "!include") as [T|]; [|discriminate].
    apply dbind_inv in H. destruct H as (u1 & p1 & H1 & H). pose proof (Ine _ _ _ _ H1) as A. pose proof (app_len _ _ A).
    pose proof (inv1_app _ _ _ _ _ _ _ _ I A) as I1.
    destruct (upd_inv1 n a name loc kvs (kvs ++ [("examples", v)]) p1 b (set_examples (Some [])) u p' I1) as [X Y]; try reflexivity; auto; try lia.
    + intros R Do. apply doc_examples; auto. right. auto.
    + split; auto. eapply grew_trans; [apply grew_app; [|exact A]; auto|exact Y].
Qed.

Lemma example1_read a loc v n name kvs p b u p' : inv1 n a name loc kvs p b -> n <= len p ->
  decode_example E a loc v p = (Ok u, p') -> (exists b', inv1 n a name loc (kvs ++ [("example", v)]) p' b') /\ grew n p p'.
Proof.
  intros I Ln H. unfold decode_example in H. apply dbind_inv in H. destruct H as (b0 & p0 & H0 & H).
  apply rd_step in H0. destruct H0 as [-> G]. rewrite (i1_base _ _ _ _ _ _ _ I) in G. injection G as <-.
  destruct (b_examples b) eqn:Eb; [discriminate|]. apply dbind_inv in H. destruct H as (m & p1 & H1 & H).
  pose proof (still_app _ _ (stills_example E loc _ _ _ _ H1)) as A. pose proof (app_len _ _ A).
  pose proof (inv1_app _ _ _ _ _ _ _ _ I A) as I1.
  destruct (upd_inv1 n a name loc kvs (kvs ++ [("example", v)]) p1 b (set_example (Some m)) u p' I1) as [X Y]; try reflexivity; auto; try lia.
  - intros R Do. apply doc_example; auto. eapply example_read; eauto.
  - split; auto. eapply grew_trans; [apply grew_app; [|exact A]; auto|exact Y].
Qed.

Lemma or_err_inv {A} (o : option A) p x p' : dlift (or_err o) p = (Ok x, p') -> o = Some x /\ p' = p.
Proof. intros H. apply dlift_inv in H. destruct H as [H ->]. destruct o; cbn in H; [injection H as ->; auto|discriminate]. Qed.

Lemma facets_read1 a loc v n name kvs p b u p' : inv1 n a name loc kvs p b -> n <= len p ->
  (m <- hp (alloc (CProps [])) ;; hp (upd_base a (set_fdefs m)) ;;; facet_defs rec m loc (y_content v))%D p = (Ok u, p') ->
  (exists b', inv1 n a name loc (kvs ++ [("facets", v)]) p' b') /\ grew n p p'.
Proof.
  intros I Ln H. apply dbind_inv in H. destruct H as (m & p1 & H1 & H). destruct (alloc_app _ _ _ _ H1) as (Qm & L1 & A1 & N1 & F1 & X1).
  pose proof (inv1_app _ _ _ _ _ _ _ _ I A1) as I1. pose proof (inv1_lt _ _ _ _ _ _ _ I) as La. pose proof (inv1_lt _ _ _ _ _ _ _ I1) as La1.
  apply dbind_inv in H. destruct H as (u1 & p2 & H2 & H). destruct (upd_change _ _ _ _ _ H2 (fun _ _ => eq_refl)) as (b0 & G0 & C2 & G2).
  rewrite (i1_base _ _ _ _ _ _ _ I1) in G0. injection G0 as <-. set (b' := set_fdefs m b) in *.
  pose proof (c_len _ _ _ _ C2) as L2.
  assert (Mp : get_props (H_ p2) m = Some []).
  { apply get_props_nth. rewrite (c_old _ _ _ _ C2); [exact N1|lia]. }
  assert (Ob : forall c, owns b' c -> owns b c \/ c = m).
  { intros c O. destruct O; cbn in *; auto; left; [constructor|constructor|eapply ow_props; eauto|eapply ow_pprops; eauto|eapply ow_anyof; eauto]. }
  assert (Lx : forall z, body a b' z -> z < len p2).
  { intros z [->|O]; [lia|]. destruct (Ob z O) as [O'| ->]; [|lia]. pose proof (i1_own _ _ _ _ _ _ _ I1 z O'). lia. }
  destruct (facet_defs_read m loc n (body a b') (y_content v) [] p2 [] u p') as [E3 (l1 & G3 & F3)]; auto; try lia.
  { right. apply ow_fdefs. }
  { constructor. }
  pose proof (e_len _ _ _ _ E3) as L3.
  assert (E2 : edit (eq a) (len p1) p1 p2) by (apply (change_edit _ _ a _ _ _ C2); auto).
  assert (Ga : get_base (H_ p') a = Some b').
  { rewrite <- G2. apply get_base_same. apply (e_cells _ _ _ _ E3); [lia|]. intros <-. lia. }
  assert (Sm : forall z, z < len p1 -> z <> a -> z <> m -> nth_error (H_ p') z = nth_error (H_ p1) z).
  { intros z Lz N N'. rewrite (e_cells _ _ _ _ E3) by (auto; lia). apply (c_old _ _ _ _ C2). auto. }
  assert (Cm : b_facets b <> m /\ b_facets b <> a).
  { pose proof (i1_own _ _ _ _ _ _ _ I _ (ow_facets b)). split; [lia|]. intros Q. pose proof (i1_custom _ _ _ _ _ _ _ I) as Cu. rewrite Q in Cu.
    pose proof (i1_base _ _ _ _ _ _ _ I) as B. apply get_base_nth in B. unfold get_facets in Cu. rewrite B in Cu. discriminate. }
  assert (W12 : edit (fun z => z = a \/ z = m) (len p1) p1 p').
  { eapply edit_trans; [eapply edit_weak; [| |exact E2]|eapply edit_weak; [| |exact E3]]; auto; try lia; intros z _ <-; auto. }
  split.
  - exists b'. split; auto.
    + exact (i1_a _ _ _ _ _ _ _ I).
    + intros c O. destruct (Ob c O) as [O'| ->]; [|lia]. pose proof (i1_own _ _ _ _ _ _ _ I1 c O'). lia.
    + pose proof (i1_doc _ _ _ _ _ _ _ I) as D1.
      assert (Ed : edit (eq a) (len p) p p').
      { eapply edit_trans; [apply app_edit; [|exact A1]; lia|]. eapply edit_weak; [| |exact W12]; [lia|]. intros z Lz [->| ->]; [auto|lia]. }
      apply (doc_facets p' _ kvs name loc b v) with (l := l1); auto.
      refine (documented_move E _ _ p p' _ _ _ b b (fo_carry n _ _ (eq a) p p' Ed _ _) _ (same_doc_refl b) _ D1).
      * intros z <-. now left.
      * intros z Lz [->|O]; [now left|]. destruct (Ob z O) as [O'| ->]; [now right|lia].
      * apply annots_app. exact (e_exts _ _ _ _ Ed).
      * intros m' Gm. rewrite <- Gm. apply get_props_same. apply (e_cells _ _ _ _ Ed).
        -- apply get_props_nth in Gm. eapply nth_error_lt; eauto.
        -- intros Q. rewrite <- Q in Gm. pose proof (i1_base _ _ _ _ _ _ _ I) as B. apply get_base_nth in B. unfold get_props in Gm. rewrite B in Gm. discriminate.
    + exact (i1_shape _ _ _ _ _ _ _ I).
    + exact (i1_link _ _ _ _ _ _ _ I).
    + pose proof (i1_custom _ _ _ _ _ _ _ I1) as Cu. rewrite <- Cu. apply get_facets_same. apply Sm; try tauto.
      pose proof (i1_own _ _ _ _ _ _ _ I1 _ (ow_facets b)). cbn. lia.
    + pose proof (i1_inh _ _ _ _ _ _ _ I1) as Ih. rewrite <- Ih. apply get_slice_same. cbn. apply Sm.
      * pose proof (i1_own _ _ _ _ _ _ _ I1 _ (ow_inherits b)). lia.
      * intros Q. rewrite Q in Ih. pose proof (i1_base _ _ _ _ _ _ _ I1) as B. apply get_base_nth in B. unfold get_slice in Ih. rewrite B in Ih. discriminate.
      * pose proof (i1_own _ _ _ _ _ _ _ I _ (ow_inherits b)). lia.
  - eapply grew_trans; [apply grew_app; [|exact A1]; auto|]. unfold grew. eapply edit_weak; [| |exact W12]; [lia|].
    pose proof (i1_a _ _ _ _ _ _ _ I). intros z Lz [->| ->]; lia.
Qed.

Lemma entry_read a loc k v n name kvs p b u p' : inv1 n a name loc kvs p b -> n <= len p -> known_key k = true ->
  entry E inc_ne rec a loc k v p = (Ok u, p') -> (exists b', inv1 n a name loc (kvs ++ [(k, v)]) p' b') /\ grew n p p'.
Proof.
  intros I Ln Kk H. unfold entry in H.
  destruct (String.eqb_spec k "displayName") as [->|N1].
  { apply dbind_inv in H. destruct H as (x & p1 & H1 & H). apply or_err_inv in H1. destruct H1 as [Q ->].
    apply (upd_inv1 n a name loc kvs _ p b (set_disp x) u p' I Ln H); try reflexivity. intros R Do. now apply doc_disp. }
  destruct (String.eqb_spec k "description") as [->|N2].
  { apply dbind_inv in H. destruct H as (x & p1 & H1 & H). apply or_err_inv in H1. destruct H1 as [Q ->].
    apply (upd_inv1 n a name loc kvs _ p b (set_desc x) u p' I Ln H); try reflexivity. intros R Do. now apply doc_desc. }
  destruct (String.eqb_spec k "required") as [->|N3].
  { apply dbind_inv in H. destruct H as (x & p1 & H1 & H). apply or_err_inv in H1. destruct H1 as [Q ->].
    apply (upd_inv1 n a name loc kvs _ p b (set_required x) u p' I Ln H); try reflexivity. intros R Do. now apply doc_required. }
  destruct (String.eqb_spec k "facets") as [->|N4]; [eapply facets_read1; eauto|].
  destruct (String.eqb_spec k "example") as [->|N5]; [eapply example1_read; eauto|].
  destruct (String.eqb_spec k "examples") as [->|N6]; [eapply examples_read; eauto|].
  destruct (String.eqb_spec k "default") as [->|N7].
  { apply dbind_inv in H. destruct H as (x & p1 & H1 & H). apply dlift_inv in H1. destruct H1 as [Q ->].
    apply (upd_inv1 n a name loc kvs _ p b (set_default (Some x)) u p' I Ln H); try reflexivity. intros R Do. apply doc_default; auto. now apply root_node_sound. }
  destruct (String.eqb_spec k "allowedTargets") as [->|N8].
  { apply dret_inv in H. destruct H as [_ ->]. split; [|now apply edit_refl]. exists b. destruct I as [B Na O Dc S K C Ih]. split; auto. now apply doc_allowed. }
  assert (An : is_annotation k = true).
  { unfold known_key in Kk. apply orb_true_iff in Kk. destruct Kk as [Kk|]; auto. cbn in Kk.
    repeat match type of Kk with (String.eqb ?x ?y || _)%bool = true => destruct (String.eqb_spec x y); [contradiction|]; cbn in Kk end. discriminate. }
  apply dbind_inv in H. destruct H as (r & p1 & H1 & H). pose proof (still_app _ _ (stills_make_ext E loc k v _ _ _ H1)) as A.
  destruct (make_ext_read _ _ _ _ _ _ H1) as (-> & S1 & S2 & x & Vx & X1). pose proof (app_len _ _ A).
  pose proof (inv1_app _ _ _ _ _ _ _ _ I A) as I1.
  apply dbind_inv in H. destruct H as (b0 & p2 & H2 & H). apply rd_step in H2. destruct H2 as [-> G0].
  rewrite (i1_base _ _ _ _ _ _ _ I1) in G0. injection G0 as <-. cbn [fst snd] in H.
  destruct (upd_change _ _ _ _ _ H (fun _ _ => eq_refl)) as (b1 & G1 & C & _). rewrite (i1_base _ _ _ _ _ _ _ I1) in G1. injection G1 as <-.
  destruct (upd_inv1 n a name loc kvs (kvs ++ [(k, v)]) p1 b (set_domain (oset (inner k) (Z.of_nat (List.length (p_exts p))) (b_domain b))) u p' I1) as [X Y];
    try reflexivity; auto; try lia.
  - intros R Do. apply doc_annot; auto. split; auto. exists (List.length (p_exts p)), (Ext (inner k) loc x None). split; auto.
    rewrite (c_exts _ _ _ _ C), X1. split; [apply nth_error_snoc|]. auto.
  - split; auto. eapply grew_trans; [apply grew_app; [|exact A]; auto|exact Y].
Qed.
End Shape.
End Read.
