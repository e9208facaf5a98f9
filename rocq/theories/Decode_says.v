(** The types made from a declaration are as the declaration says (C62):
    decoding. *)
From Coq Require Import ZArith List String Bool Ascii Lia.
From Verif Require Import Base Scalars Heap Rdt Resolve Names Spec_Names Yaml Spec_Yaml Yaml_proofs Pipeline Spec_Resolve Spec_Model
  Decode Parse Spec_Parse Spec_Decode Parse_ends Heap_lemmas Parse_fresh.
From Verif Require Names_proofs.
Import ListNotations.
Open Scope string_scope.
Open Scope list_scope.
Open Scope nat_scope.

(** * Lists of entries *)

Lemma last_of_snoc k l k' v : last_of k (l ++ [(k', v)]) = if String.eqb k k' then Some v else last_of k l.
Proof.
  induction l as [|[k1 v1] l IH]; cbn; [reflexivity|]. rewrite IH. destruct (String.eqb k k'); [reflexivity|].
  destruct (last_of k l); reflexivity.
Qed.

Lemma filled_mono {A} (R R' : string -> ynode -> string -> A -> Prop) l m :
  (forall k n nm x, In (k, n) l -> R k n nm x -> R' k n nm x) -> filled R l m -> filled R' l m.
Proof.
  intros W F. induction F as [|l m key node name x F IH H]; [constructor|]. constructor.
  - apply IH. intros k n nm y I. apply W. apply in_or_app. now left.
  - apply W; auto. apply in_or_app. right. now left.
Qed.

Lemma filled_weak {A} (R R' : string -> ynode -> string -> A -> Prop) l m :
  (forall k n nm x, R k n nm x -> R' k n nm x) -> filled R l m -> filled R' l m.
Proof. intros W. apply filled_mono. intros; auto. Qed.

(** What is in a filled map was put there. *)
Lemma filled_in {A} (R : string -> ynode -> string -> A -> Prop) l m nm x : filled R l m -> In (nm, x) m -> exists k n, In (k, n) l /\ R k n nm x.
Proof.
  intros F. induction F as [|l m key node name y F IH H]; [intros []|]. intros I.
  assert (X : (nm = name /\ x = y) \/ In (nm, x) m).
  { clear - I. induction m as [|[k z] m IH]; cbn in I.
    - destruct I as [I|[]]. injection I as <- <-. auto.
    - destruct (String.eqb name k) eqn:Q; destruct I as [I|I].
      + injection I as <- <-. apply String.eqb_eq in Q. auto.
      + right. now right.
      + right. now left.
      + destruct (IH I); auto. right. now right. }
  destruct X as [[-> ->]|X].
  - exists key, node. split; auto. apply in_or_app. right. now left.
  - destruct (IH X) as (k & n & I' & H'). exists k, n. split; auto. apply in_or_app. now left.
Qed.

Lemma field_weak {A} (R R' : ynode -> A -> Prop) k l r : (forall n x, R n x -> R' n x) -> field R k l r -> field R' k l r.
Proof. unfold field. destruct (last_of k l); auto. intros W (x & Q & H). eauto. Qed.

(** * Steps *)

Lemma dbind_inv {A B} (m : D A) (f : A -> D B) p b p' : dbind m f p = (Ok b, p') -> exists a p1, m p = (Ok a, p1) /\ f a p1 = (Ok b, p').
Proof. unfold dbind. destruct (m p) as [[a| | |] p1]; try discriminate. eauto. Qed.
Lemma dlift_inv {A} (r : res A) p a p' : dlift r p = (Ok a, p') -> r = Ok a /\ p' = p.
Proof. unfold dlift. intros H. now injection H as -> ->. Qed.
Lemma dret_inv {A} (x : A) p a p' : dret x p = (Ok a, p') -> a = x /\ p' = p.
Proof. unfold dret. intros H. now injection H as -> ->. Qed.

Definition len (p : pst) : nat := List.length (H_ p).

(** The data type at [l] was read from the file [path]. *)
Definition located (p : pst) (l : addr) (path : string) : Prop :=
  exists y b, nth_error (H_ p) l = Some (CDT (Some y)) /\ get_base (H_ p) y = Some b /\ b_loc b = path.

(** What is never changed: data types, and where types are written. *)
Record stays (p p' : pst) : Prop := {
  sy_dts : incl (p_dts p) (p_dts p');
  sy_new : forall path l, In (path, l) (p_dts p') -> In (path, l) (p_dts p) \/ located p' l path;
  sy_dt : forall l o, nth_error (H_ p) l = Some (CDT o) -> nth_error (H_ p') l = Some (CDT o);
  sy_loc : forall x b, get_base (H_ p) x = Some b -> exists b', get_base (H_ p') x = Some b' /\ b_loc b' = b_loc b
}.
Lemma located_stays p p' l path : stays p p' -> located p l path -> located p' l path.
Proof. intros [_ _ B C] (y & b & N & G & Q). destruct (C y b G) as (b' & G' & Q'). exists y, b'. split; auto. split; auto. congruence. Qed.
Lemma stays_refl p : stays p p.
Proof. split; eauto. apply incl_refl. Qed.
Lemma stays_trans p1 p2 p3 : stays p1 p2 -> stays p2 p3 -> stays p1 p3.
Proof.
  intros S1 S2. destruct S1 as [A N B C] eqn:Q1. destruct S2 as [A' N' B' C'] eqn:Q2. split; auto.
  - eapply incl_tran; eauto.
  - intros path l I. destruct (N' _ _ I) as [I'|]; auto. destruct (N _ _ I') as [|L]; auto. right. exact (located_stays _ _ _ _ S2 L).
  - intros x b G. destruct (C x b G) as (b' & G' & Q). destruct (C' x b' G') as (b2 & G2 & Q3). exists b2. split; auto. congruence.
Qed.
Lemma stays_same p p' : p_dts p' = p_dts p -> p_st p' = p_st p -> stays p p'.
Proof. intros A B. split; unfold H_; rewrite ?A, ?B; eauto. apply incl_refl. Qed.
Lemma stays_heap p p' : incl (p_dts p) (p_dts p') -> (forall path l, In (path, l) (p_dts p') -> In (path, l) (p_dts p) \/ located p' l path) ->
  (forall z, z < len p -> nth_error (H_ p') z = nth_error (H_ p) z) -> stays p p'.
Proof.
  intros A N B. split; auto.
  - intros l o Nl. rewrite B; auto. eapply nth_error_lt; eauto.
  - intros x b G. exists b. split; auto. apply get_base_nth. apply get_base_nth in G. rewrite B; auto. eapply nth_error_lt; eauto.
Qed.
Lemma stays_cells p p' : p_dts p' = p_dts p -> (forall z, z < len p -> nth_error (H_ p') z = nth_error (H_ p) z) -> stays p p'.
Proof. intros A B. apply stays_heap; auto; rewrite A; auto. apply incl_refl. Qed.
Definition from (p : pst) (path : string) (l : addr) : Prop := In (path, l) (p_dts p) \/ located p l path.
Lemma from_stays p p' path l : stays p p' -> from p path l -> from p' path l.
Proof. intros S [I|L]; [left; now apply (sy_dts _ _ S)|right; eapply located_stays; eauto]. Qed.

(** Cells below [n] that are not in [W] stay, as do the facets kept for them;
    annotations are only added. *)
Record edit (W : addr -> Prop) (n : nat) (p p' : pst) : Prop := {
  e_low : n <= len p;
  e_len : len p <= len p';
  e_cells : forall z, z < n -> ~ W z -> nth_error (H_ p') z = nth_error (H_ p) z;
  e_fnodes : forall z, z < n -> ~ W z -> facets_of z (p_facets p') = facets_of z (p_facets p);
  e_exts : exists l, p_exts p' = p_exts p ++ l;
  e_stays : stays p p'
}.
Definition none : addr -> Prop := fun _ => False.
Definition app (p p' : pst) : Prop := edit none (len p) p p'.

Lemma edit_refl W n p : n <= len p -> edit W n p p.
Proof. intros L. split; auto; [exists []; now rewrite app_nil_r|apply stays_refl]. Qed.
Lemma edit_trans W n p1 p2 p3 : edit W n p1 p2 -> edit W n p2 p3 -> edit W n p1 p3.
Proof.
  intros [A1 B1 C1 D1 (l1 & X1) S1] [A2 B2 C2 D2 (l2 & X2) S2]. split; auto; try lia; [| | |eapply stays_trans; eauto].
  - intros z L N. rewrite C2; auto.
  - intros z L N. rewrite D2; auto.
  - exists (l1 ++ l2). rewrite X2, X1. now rewrite app_assoc.
Qed.
Lemma edit_weak (W W' : addr -> Prop) n n' p p' : n' <= n -> (forall z, z < n' -> W z -> W' z) -> edit W n p p' -> edit W' n' p p'.
Proof. intros L Wk [A B C D X S]. split; auto; try lia; intros z Lz N; [apply C|apply D]; try lia; intros Hz; apply N; auto. Qed.
Lemma app_edit W n p p' : n <= len p -> app p p' -> edit W n p p'.
Proof. intros L. apply edit_weak; auto. intros z _ []. Qed.
Lemma app_refl p : app p p.
Proof. now apply edit_refl. Qed.
Lemma app_trans p1 p2 p3 : app p1 p2 -> app p2 p3 -> app p1 p3.
Proof. intros A B. eapply edit_trans; [exact A|]. eapply app_edit; [|exact B]. exact (e_len _ _ _ _ A). Qed.
Lemma app_len p p' : app p p' -> len p <= len p'. Proof. apply e_len. Qed.

Lemma get_base_same h h' x : nth_error h' x = nth_error h x -> get_base h' x = get_base h x.
Proof. intros Q. unfold get_base. now rewrite Q. Qed.
Lemma get_props_same h h' x : nth_error h' x = nth_error h x -> get_props h' x = get_props h x.
Proof. intros Q. unfold get_props. now rewrite Q. Qed.
Lemma get_facets_same h h' x : nth_error h' x = nth_error h x -> get_facets h' x = get_facets h x.
Proof. intros Q. unfold get_facets. now rewrite Q. Qed.
Lemma get_slice_same h h' x : nth_error h' x = nth_error h x -> get_slice h' x = get_slice h x.
Proof. intros Q. unfold get_slice. now rewrite Q. Qed.
Lemma base_lt h x b : get_base h x = Some b -> x < List.length h.
Proof. intros G. apply get_base_nth in G. eapply nth_error_lt; eauto. Qed.
Lemma app_base p p' x b : app p p' -> get_base (H_ p) x = Some b -> get_base (H_ p') x = Some b.
Proof. intros A G. rewrite <- G. apply get_base_same. apply (e_cells _ _ _ _ A); [exact (base_lt _ _ _ G)|intros []]. Qed.

(** Steps that do not touch the heap. *)
Record still (p p' : pst) : Prop := { s_st : p_st p' = p_st p; s_fn : p_facets p' = p_facets p; s_exts : exists l, p_exts p' = p_exts p ++ l;
  s_dts : incl (p_dts p) (p_dts p');
  s_new : forall path l, In (path, l) (p_dts p') -> In (path, l) (p_dts p) \/ located p' l path }.
Lemma still_app p p' : still p p' -> app p p'.
Proof. intros [A B C D N]. unfold app. split; unfold len, H_; rewrite ?A, ?B; auto. apply stays_heap; auto. unfold H_. now rewrite A. Qed.
Lemma still_easy p p' : p_st p' = p_st p -> p_facets p' = p_facets p -> (exists l, p_exts p' = p_exts p ++ l) -> p_dts p' = p_dts p -> still p p'.
Proof. intros A B C D. split; auto; rewrite D; auto. apply incl_refl. Qed.
Lemma still_refl p : still p p. Proof. apply still_easy; auto. exists []. now rewrite app_nil_r. Qed.
Lemma still_trans p1 p2 p3 : still p1 p2 -> still p2 p3 -> still p1 p3.
Proof.
  intros [A B (l & C) D N] [A' B' (l' & C') D' N']. split; try congruence; [exists (l ++ l'); now rewrite C', C, app_assoc|eapply incl_tran; eauto|].
  intros path x I. destruct (N' _ _ I) as [I'|]; auto. destruct (N _ _ I') as [|L]; auto. right. unfold located, H_ in *. now rewrite A'.
Qed.

(** * Declarations that are as written, with unknown types *)

(** The kind is left open by the declaration itself. *)
Definition vague (v : ynode) : Prop :=
  exists t, type_node v = Some t /\ (y_kind t = KScalar -> y_tag t <> "!!null"
     /\ (y_tag t = "!!str" -> y_value t <> "" /\ (forall s, y_value t <> String "{" s) /\ builtin (y_value t) = false)).

Lemma vague_not v : vague v -> by_itself v -> False.
Proof.
  intros (t & T & V) B. unfold by_itself in B. rewrite T in B. destruct B as (K & B). destruct (V K) as (N & S).
  destruct B as [B|(Ts & B)]; [contradiction|]. destruct (S Ts) as (S1 & S2 & S3). destruct B as [B|[(s & B)|B]]; [contradiction|now apply (S2 s)|congruence].
Qed.

Section Says.
Variable E : denv.

(** The type is not known yet. *)
Record pending (p : pst) (v : ynode) (x : addr) (b : base) : Prop := {
  pe_shape : b_shape b = Some SUnknown;
  pe_facets : facets_of x (p_facets p) = match y_kind v with KMap => Some (own_facets v) | _ => None end;
  pe_custom : get_facets (H_ p) (b_facets b) = Some [];
  pe_vague : vague v;
  pe_text : b_link b = None -> b_type b <> "composite" -> type_text v (b_type b) /\ builtin (b_type b) = false;
  pe_expr : forall t, type_text v t -> b_link b = None /\ b_type b = t /\ get_slice (H_ p) (b_inherits b) = Some [];
  pe_other : forall t, type_node v = Some t -> (y_kind t = KScalar -> y_tag t <> "!!str" -> b_link b <> None)
     /\ (y_kind t = KSeq -> b_link b = None /\ b_type b = "composite");
  pe_inc : forall t, type_node v = Some t -> y_kind t = KScalar -> y_tag t = "!include" ->
     exists l, b_link b = Some l /\ from p (e_join (d_y E) (b_loc b) (y_value t)) l
}.

Definition rel := ynode -> string -> string -> addr -> Prop.
(** What is said about a type whose kind was left open and is known now. *)
Definition known_as := (addr -> Prop) -> pst -> ynode -> string -> addr -> base -> Prop.
Definition nothing : known_as := fun _ _ _ _ _ _ => False.
Definition local_with (Dn : known_as) (F : addr -> Prop) (p : pst) (R : rel) (v : ynode) (name loc : string) (x : addr) : Prop :=
  exists b, get_base (H_ p) x = Some b
    /\ documented E p R (entries v) name loc b
    /\ parents_read p R v name loc b
    /\ (F x /\ forall c, owns b c -> F c)
    /\ ((~ hollow b /\ (~ wrapped_name v -> shaped E p R v loc b) /\ (vague v -> Dn F p v loc x b)) \/ pending p v x b).
Definition st_with (Dn : known_as) (F : addr -> Prop) (p : pst) : rel := fun v name loc x =>
  exists R : rel, R v name loc x /\ forall v name loc x, R v name loc x -> local_with Dn F p R v name loc x.
Definition local := local_with nothing.
Definition st := st_with nothing.

(** ** Moving from one state to another *)

(** Types below stay where they are, and as required. *)
Definition carries (R R' : rel) (p p' : pst) : Prop := forall v name loc x, R v name loc x ->
  R' v name loc x /\ forall xb, get_base (H_ p) x = Some xb -> exists xb', get_base (H_ p') x = Some xb' /\ b_required xb' = b_required xb.
Definition annots (p p' : pst) : Prop := forall j e, nth_error (p_exts p) j = Some e ->
  exists e', nth_error (p_exts p') j = Some e' /\ e_name e' = e_name e /\ e_loc e' = e_loc e /\ e_value e' = e_value e.
Lemma annots_refl p : annots p p. Proof. intros j e N. eauto. Qed.
Lemma annots_app p p' : (exists l, p_exts p' = p_exts p ++ l) -> annots p p'.
Proof. intros (l & Q) j e N. exists e. rewrite Q, nth_error_app1; auto. eapply nth_error_lt; eauto. Qed.

(** The fields that are read from the documentation. *)
Record same_doc (b b' : base) : Prop := {
  sd_name : b_name b' = b_name b; sd_loc : b_loc b' = b_loc b; sd_disp : b_disp b' = b_disp b; sd_desc : b_desc b' = b_desc b;
  sd_required : b_required b' = b_required b; sd_default : b_default b' = b_default b; sd_example : b_example b' = b_example b;
  sd_examples : b_examples b' = b_examples b; sd_domain : b_domain b' = b_domain b; sd_fdefs : b_fdefs b' = b_fdefs b
}.
Lemma same_doc_refl b : same_doc b b. Proof. split; reflexivity. Qed.
Lemma same_doc_trans b1 b2 b3 : same_doc b1 b2 -> same_doc b2 b3 -> same_doc b1 b3.
Proof. intros [] []. split; congruence. Qed.

Lemma annotation_move p p' loc k n nm i : annots p p' -> annotation E p loc k n nm i -> annotation E p' loc k n nm i.
Proof.
  intros An (Q & j & e & Q1 & N & A & B & C). split; auto. destruct (An j e N) as (e' & N' & A' & B' & C').
  exists j, e'. rewrite A', B', C'. auto 10.
Qed.

Lemma facet_def_move R R' p p' loc k n nm pr : carries R R' p p' -> facet_def p R loc k n nm pr -> facet_def p' R' loc k n nm pr.
Proof.
  intros C (Q & Hr & xb & G & N). destruct (C _ _ _ _ Hr) as [Hr' K]. destruct (K xb G) as (xb' & G' & Rq).
  split; auto. split; auto. exists xb'. rewrite Rq. auto.
Qed.
Lemma plain_move R R' p p' loc k n nm pr : carries R R' p p' -> plain_property E p R loc k n nm pr -> plain_property E p' R' loc k n nm pr.
Proof.
  intros C (Q & Hr & xb & G & N). destruct (C _ _ _ _ Hr) as [Hr' K]. destruct (K xb G) as (xb' & G' & Rq).
  split; auto. split; auto. exists xb'. rewrite Rq. auto.
Qed.
Lemma pattern_move R R' p p' loc k n nm pr : carries R R' p p' -> pattern_property E p R loc k n nm pr -> pattern_property E p' R' loc k n nm pr.
Proof.
  intros C (Hr & xb & G & N). destruct (C _ _ _ _ Hr) as [Hr' K]. destruct (K xb G) as (xb' & G' & Rq).
  split; auto. exists xb'. rewrite Rq. auto.
Qed.

Lemma documented_move (R R' : rel) p p' v name loc b b' : carries R R' p p' -> annots p p' -> same_doc b b' ->
  (forall m, get_props (H_ p) (b_fdefs b) = Some m -> get_props (H_ p') (b_fdefs b) = Some m) ->
  documented E p R v name loc b -> documented E p' R' v name loc b'.
Proof.
  intros C An S Fd D. destruct S as [S1 S2 S3 S4 S5 S6 S7 S8 S9 S10].
  destruct D as [D1 D2 D3 D4 D5 D6 D7 D8 De D9 (m & D10 & D11)].
  split; try congruence.
  - rewrite S9. eapply filled_weak; [|exact D9]. intros k n nm i. now apply annotation_move.
  - exists m. rewrite S10. split; [now apply Fd|]. eapply filled_weak; [|exact D11]. intros k n nm pr. now apply facet_def_move.
Qed.

Lemma parents_move R R' p p' v name loc b b' : carries R R' p p' ->
  (forall l t, type_node v = Some t -> y_kind t = KSeq -> get_slice (H_ p) (b_inherits b) = Some l -> get_slice (H_ p') (b_inherits b') = Some l) ->
  (by_itself v -> b_alias b' = b_alias b /\ b_link b' = b_link b
     /\ (get_slice (H_ p) (b_inherits b) = Some [] -> get_slice (H_ p') (b_inherits b') = Some [])) ->
  parents_read p R v name loc b -> parents_read p' R' v name loc b'.
Proof.
  intros C S B [P Q]. split; [|intros Y; destruct (B Y) as (-> & -> & N); destruct (Q Y) as (A1 & A2 & A3); auto].
  intros t T K. destruct (P t T K) as (l & G & F). exists l. split; [now apply (S l t)|].
  clear - C F. induction F as [|n y ns ys H F IH]; constructor; auto. now apply (C _ _ _ _ H).
Qed.

Lemma property_map_move p p' (Q Q' : string -> ynode -> string -> prop -> Prop) l o :
  (forall k n nm pr, Q k n nm pr -> Q' k n nm pr) ->
  (forall a m, o = Some a -> get_props (H_ p) a = Some m -> get_props (H_ p') a = Some m) ->
  property_map p Q l o -> property_map p' Q' l o.
Proof.
  intros W S. unfold property_map. destruct o as [a|]; auto. intros (N & m & G & F). split; auto. exists m. split; [now apply S|].
  eapply filled_weak; eauto.
Qed.

(** Custom facets put into a table that is not empty at first. *)
Definition over (m0 : omap gval) (loc : string) (l : list (string * ynode)) (m : omap gval) : Prop := forall k,
  match last_of k l with
  | Some n => exists d, oget k m = Some d /\ value_of E loc n d
  | None => oget k m = oget k m0
  end.
Definition shape_over (m0 : omap gval) (p : pst) (R : rel) (fs : list (string * ynode)) (loc : string) (items_too : Prop) (b : base) (sh : shape) : Prop :=
  facets_read E loc sh fs
  /\ (exists m, get_facets (H_ p) (b_facets b) = Some m /\ over m0 loc (custom_of sh fs) m)
  /\ match sh with
     | SArray f => items_too -> field (fun n i => R n "items" loc i) "items" fs (a_items f)
     | SObject f => property_map p (plain_property E p R loc) (plain_properties fs) (o_props f)
                    /\ property_map p (pattern_property E p R loc) (pattern_properties fs) (o_pprops f)
     | _ => True
     end.
Lemma shape_over_read p R fs loc it b sh : shape_over [] p R fs loc it b sh <-> shape_read E p R fs loc it b sh.
Proof. reflexivity. Qed.

Lemma shape_over_move m0 R R' p p' fs loc (it it' : Prop) b b' sh : carries R R' p p' -> (it' -> it) ->
  b_facets b' = b_facets b ->
  (forall m, get_facets (H_ p) (b_facets b) = Some m -> get_facets (H_ p') (b_facets b) = Some m) ->
  (forall a m, boxes sh a -> get_props (H_ p) a = Some m -> get_props (H_ p') a = Some m) ->
  shape_over m0 p R fs loc it b sh -> shape_over m0 p' R' fs loc it' b' sh.
Proof.
  intros C It Fb Fc Bx (A & (m & G & F) & B). split; auto. split; [exists m; rewrite Fb; split; auto; now apply Fc|].
  destruct sh; auto.
  - intros I. eapply field_weak; [|exact (B (It I))]. intros n x Hr. now apply (C _ _ _ _ Hr).
  - destruct B as [B1 B2]. split.
    + refine (property_map_move p p' _ _ _ _ _ _ B1); [intros k n nm pr; now apply plain_move|]. intros a m' Q. apply Bx. cbn. auto.
    + refine (property_map_move p p' _ _ _ _ _ _ B2); [intros k n nm pr; now apply pattern_move|]. intros a m' Q. apply Bx. cbn. auto.
Qed.

Definition shape_read_move R R' p p' fs loc (it it' : Prop) b b' sh :
  carries R R' p p' -> (it' -> it) -> b_facets b' = b_facets b ->
  (forall m, get_facets (H_ p) (b_facets b) = Some m -> get_facets (H_ p') (b_facets b) = Some m) ->
  (forall a m, boxes sh a -> get_props (H_ p) a = Some m -> get_props (H_ p') a = Some m) ->
  shape_read E p R fs loc it b sh -> shape_read E p' R' fs loc it' b' sh
  := shape_over_move [] R R' p p' fs loc it it' b b' sh.

(** ** A footprint that is left alone *)

Record inside (F : addr -> Prop) (p p' : pst) : Prop := {
  i_cells : forall z, F z -> nth_error (H_ p) z <> None -> nth_error (H_ p') z = nth_error (H_ p) z;
  i_fnodes : forall z, F z -> facets_of z (p_facets p') = facets_of z (p_facets p);
  i_exts : annots p p';
  i_stays : stays p p'
}.

Lemma inside_base F p p' x b : inside F p p' -> F x -> get_base (H_ p) x = Some b -> get_base (H_ p') x = Some b.
Proof.
  intros I Fx G. rewrite <- G. apply get_base_same. apply (i_cells _ _ _ I); auto. apply get_base_nth in G. congruence.
Qed.

Lemma local_with_move (Dn : known_as) F p p' (R : rel) v name loc x : inside F p p' -> (forall v name loc x, R v name loc x -> F x) ->
  (forall v loc x b, F x -> get_base (H_ p) x = Some b -> ~ hollow b -> (forall c, owns b c -> F c) -> Dn F p v loc x b -> Dn F p' v loc x b) ->
  local_with Dn F p R v name loc x -> local_with Dn F p' R v name loc x.
Proof.
  intros I RF DM (b & G & Do & Pa & [Fx Fo] & Sh).
  assert (C : carries R R p p').
  { intros v0 n0 l0 y H. split; auto. intros xb Gy. exists xb. split; auto. eapply inside_base; eauto. }
  exists b. split; [eapply inside_base; eauto|].
  assert (Sa : forall z, owns b z -> nth_error (H_ p) z <> None -> nth_error (H_ p') z = nth_error (H_ p) z).
  { intros z O N. apply (i_cells _ _ _ I); auto. }
  assert (Pr : forall a m, owns b a -> get_props (H_ p) a = Some m -> get_props (H_ p') a = Some m).
  { intros a m O Gm. rewrite <- Gm. apply get_props_same. apply Sa; auto. apply get_props_nth in Gm. congruence. }
  assert (Fc : forall m, get_facets (H_ p) (b_facets b) = Some m -> get_facets (H_ p') (b_facets b) = Some m).
  { intros m Gm. rewrite <- Gm. apply get_facets_same. apply Sa; [constructor|]. apply get_facets_nth in Gm. congruence. }
  split; [|split; [|split; [auto|]]].
  - eapply documented_move; [exact C|exact (i_exts _ _ _ I)|apply same_doc_refl| |exact Do]. intros m. apply Pr. constructor.
  - assert (Sl : forall l, get_slice (H_ p) (b_inherits b) = Some l -> get_slice (H_ p') (b_inherits b) = Some l).
    { intros l Gl. rewrite <- Gl. apply get_slice_same. apply Sa; [constructor|]. apply get_slice_nth in Gl. congruence. }
    eapply parents_move; [exact C|intros l t _ _; apply Sl|intros _; auto|exact Pa].
  - destruct Sh as [(Nh & Sh & Dv)|Pe]; [left|right].
    + split; auto. split; [|intros Vv; apply DM; auto]. intros Nw. destruct (Sh Nw) as (Kr & sh & Qs & Ns & Kn & Sr). split; auto. exists sh. split; auto. split; auto. split; auto.
      refine (shape_read_move R R p p' _ _ _ _ b b sh C (fun i => i) eq_refl Fc _ Sr).
      intros a m Bx. apply Pr. eapply boxes_own; eauto.
    + destruct Pe as [P1 P2 P3 P4 P5 P6 P7 P8]. split; auto; [rewrite (i_fnodes _ _ _ I) by auto; exact P2| |intros t T K Q; destruct (P8 t T K Q) as (l & Lk & Fr); exists l; split; auto; eapply from_stays; [exact (i_stays _ _ _ I)|exact Fr]].
      intros t T. destruct (P6 t T) as (A & B & Gl). split; auto. split; auto. rewrite <- Gl. apply get_slice_same. apply Sa; [constructor|].
      apply get_slice_nth in Gl. congruence.
Qed.

Lemma st_with_foot (Dn : known_as) F p v name loc x : st_with Dn F p v name loc x -> F x /\ exists b, get_base (H_ p) x = Some b.
Proof. intros (R & H & L). destruct (L _ _ _ _ H) as (b & G & _ & _ & [Fx _] & _). eauto. Qed.
Definition st_foot := st_with_foot nothing.

Lemma st_move F p p' v name loc x : inside F p p' -> st F p v name loc x -> st F p' v name loc x.
Proof.
  intros I (R & H & L). exists R. split; auto. intros v0 n0 l0 y Hy. apply (local_with_move nothing F p p'); auto.
  intros v1 n1 l1 z Hz. destruct (L _ _ _ _ Hz) as (b & _ & _ & _ & [Fz _] & _). exact Fz.
Qed.

Lemma local_with_wide (Dn Dn' : known_as) (F F' : addr -> Prop) p (R : rel) v name loc x : (forall z, F z -> F' z) ->
  (forall v loc x b, Dn F p v loc x b -> Dn' F' p v loc x b) -> local_with Dn F p R v name loc x -> local_with Dn' F' p R v name loc x.
Proof.
  intros W DW (b & A & B & C & [D1 D2] & S). exists b. split; [auto|]. split; [auto|]. split; [auto|]. split; [split; auto|].
  destruct S as [(Nh & Sh & Dv)|Pe]; [left|auto]. auto.
Qed.
Lemma st_with_wide (Dn Dn' : known_as) (F F' : addr -> Prop) p v name loc x : (forall z, F z -> F' z) ->
  (forall v loc x b, Dn F p v loc x b -> Dn' F' p v loc x b) -> st_with Dn F p v name loc x -> st_with Dn' F' p v name loc x.
Proof. intros W DW (R & H & L). exists R. split; auto. intros v0 n0 l0 y Hy. eapply local_with_wide; eauto. Qed.
Lemma st_wide (F F' : addr -> Prop) p v name loc x : (forall z, F z -> F' z) -> st F p v name loc x -> st F' p v name loc x.
Proof. intros W. apply st_with_wide; auto. Qed.

(** Both at once. *)
Lemma st_carry (F F' : addr -> Prop) p p' : inside F p p' -> (forall z, F z -> F' z) -> carries (st F p) (st F' p') p p'.
Proof.
  intros I W v name loc x H. split; [eapply st_wide; [exact W|]; eapply st_move; eauto|].
  intros xb G. exists xb. split; auto. eapply inside_base; eauto. now apply st_foot in H.
Qed.

Lemma local_with_mono (Dn : known_as) F p (R R' : rel) v name loc x : (forall v n l x, R v n l x -> R' v n l x) -> local_with Dn F p R v name loc x -> local_with Dn F p R' v name loc x.
Proof.
  intros W (b & G & Do & Pa & Fo & Sh).
  assert (C : carries R R' p p) by (intros v0 n0 l0 y H; split; eauto).
  exists b. split; auto. split; [|split; [|split; [auto|]]].
  - exact (documented_move R R' p p _ _ _ b b C (annots_refl p) (same_doc_refl b) (fun _ g => g) Do).
  - exact (parents_move R R' p p _ _ _ b b C (fun _ _ _ _ g => g) (fun _ => conj eq_refl (conj eq_refl (fun g => g))) Pa).
  - destruct Sh as [(Nh & Sh & Dv)|Pe]; [left|auto]. split; auto. split; [|exact Dv]. intros Nw. destruct (Sh Nw) as (Kr & sh & Qs & Ns & Kn & Sr). split; auto.
    exists sh. split; auto. split; auto. split; auto. exact (shape_read_move R R' p p _ _ _ _ b b sh C (fun i => i) eq_refl (fun _ g => g) (fun _ _ _ g => g) Sr).
Qed.

Definition local_mono := local_with_mono nothing.

Lemma st_with_fold (Dn : known_as) F p v name loc x : local_with Dn F p (st_with Dn F p) v name loc x -> st_with Dn F p v name loc x.
Proof.
  intros L. exists (fun v n l x => local_with Dn F p (st_with Dn F p) v n l x). split; auto. intros v0 n0 l0 y Ly.
  eapply local_with_mono; [|exact Ly]. clear. intros v n l x (R & H & L). pose proof (L _ _ _ _ H) as L0.
  eapply local_with_mono; [|exact L0]. intros. exists R. auto.
Qed.
Definition st_fold := st_with_fold nothing.

Lemma st_with_unfold (Dn : known_as) F p v name loc x : st_with Dn F p v name loc x -> local_with Dn F p (st_with Dn F p) v name loc x.
Proof.
  intros (R & H & L). pose proof (L _ _ _ _ H) as L0. eapply local_with_mono; [|exact L0]. intros. exists R. auto.
Qed.
Definition st_unfold := st_with_unfold nothing.

(** Without unknown types this is what the specification says. *)
Lemma st_with_stated (Dn : known_as) F p v name loc x : (forall y b, get_base (H_ p) y = Some b -> b_shape b <> Some SUnknown) ->
  (forall v loc x b, get_base (H_ p) x = Some b -> b_loc b = loc -> (vague v -> Dn F p v loc x b) -> routed E p v loc x b) ->
  st_with Dn F p v name loc x -> stated E p v name loc x.
Proof.
  intros K DR (R & H & L). exists R. split; auto. intros v0 n0 l0 y Hy. destruct (L _ _ _ _ Hy) as (b & G & Do & Pa & _ & Sh).
  exists b. split; auto. split; auto. split; auto. destruct Sh as [(_ & Sh & Dv)|Pe]; [|destruct (K _ _ G); exact (pe_shape _ _ _ _ Pe)].
  split; auto. eapply DR; eauto. exact (dc_loc _ _ _ _ _ _ _ Do).
Qed.
End Says.
