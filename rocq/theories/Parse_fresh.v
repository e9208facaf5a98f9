(** What parsing leaves: a complete, well-formed model. *)
From Coq Require Import ZArith List String Bool Ascii Lia.
From Verif Require Import Base Scalars Heap Rdt Resolve Names Yaml Yaml_proofs Pipeline Spec_Validate Spec_Model Spec_Resolve Spec_Pipeline Decode Parse Spec_Parse Parse_ends.
From Verif Require Import Heap_lemmas Ids_proofs.
From Verif Require Pipeline_proofs Resolve_proofs.
Import ListNotations.
Open Scope string_scope.
Open Scope list_scope.
Open Scope nat_scope.

(** * Heaps *)

Inductive sort := TBase | TProps | TFacets | TSlice | TDT.
Definition sort_of (c : cell) : sort :=
  match c with CBase _ => TBase | CProps _ => TProps | CFacets _ => TFacets | CSlice _ => TSlice | CDT _ => TDT end.
Definition has (h : list cell) (x : addr) (k : sort) : Prop := exists c, nth_error h x = Some c /\ sort_of c = k.

Definition shape_ok (h : list cell) (sh : shape) : Prop :=
  match sh with
  | SArray f => forall i, a_items f = Some i -> has h i TBase
  | SObject f => (forall m, o_props f = Some m -> has h m TProps) /\ (forall m, o_pprops f = Some m -> has h m TProps)
  | SUnion sl _ => has h sl TSlice
  | SRec _ => False
  | _ => True
  end.

Record base_ok (h : list cell) (b : base) : Prop := {
  k_facets : has h (b_facets b) TFacets;
  k_fdefs : has h (b_fdefs b) TProps;
  k_inherits : has h (b_inherits b) TSlice;
  k_link : forall d, b_link b = Some d -> has h d TDT;
  k_alias : forall y, b_alias b = Some y -> has h y TBase;
  k_shape : forall sh, b_shape b = Some sh -> shape_ok h sh;
  k_kind : forall sh, b_shape b = Some sh -> sh <> SUnknown -> builtin (b_type b) = true;
  k_flags : b_visited b = false /\ b_unwrapped b = false
}.

Definition cell_ok (h : list cell) (c : cell) : Prop :=
  match c with
  | CBase b => base_ok h b
  | CProps m => NoDup (map fst m) /\ forall k p, In (k, p) m -> has h (p_base p) TBase
  | CFacets _ => True
  | CSlice l => forall y, In y l -> has h y TBase
  | CDT o => exists y, o = Some y /\ has h y TBase
  end.

(** The kind is not known. *)
Definition hollow (b : base) : Prop := b_shape b = None \/ b_shape b = Some SUnknown.
Definition known (h : list cell) (x : addr) : Prop := exists b, get_base h x = Some b /\ ~ hollow b.

Record good (P : addr -> Prop) (s : st) : Prop := {
  g_cells : forall x c, nth_error (heap s) x = Some c -> cell_ok (heap s) c;
  g_hollow : forall x b, get_base (heap s) x = Some b -> hollow b -> P x;
  g_own : unshared (heap s);
  g_num : numbered s
}.

(** What every step keeps; [U] are the types under construction. *)
Record moves (U : addr -> Prop) (s s' : st) : Prop := {
  m_sort : forall x k, has (heap s) x k -> has (heap s') x k;
  m_known : forall x, ~ U x -> known (heap s) x -> known (heap s') x
}.

Lemma moves_refl U s : moves U s s. Proof. split; auto. Qed.
Lemma moves_trans U s1 s2 s3 : moves U s1 s2 -> moves U s2 s3 -> moves U s1 s3.
Proof. intros [A B] [C D]. split; auto. Qed.

Lemma has_base h x : has h x TBase <-> exists b, get_base h x = Some b.
Proof.
  split.
  - intros (c & N & S). destruct c; try discriminate. exists b. now apply get_base_nth.
  - intros (b & G). apply get_base_nth in G. exists (CBase b). auto.
Qed.
Lemma get_base_has h x b : get_base h x = Some b -> has h x TBase.
Proof. intros. apply has_base. eauto. Qed.
Lemma known_has h x : known h x -> has h x TBase.
Proof. intros (b & G & _). eapply get_base_has; eauto. Qed.
Lemma has_slice h x : has h x TSlice -> exists l, get_slice h x = Some l.
Proof. intros (c & N & S). destruct c; try discriminate. exists l. now apply get_slice_nth. Qed.
Lemma has_props h x : has h x TProps -> exists l, get_props h x = Some l.
Proof. intros (c & N & S). destruct c; try discriminate. exists m. now apply get_props_nth. Qed.
Lemma has_facets h x : has h x TFacets -> exists l, get_facets h x = Some l.
Proof. intros (c & N & S). destruct c; try discriminate. exists m. now apply get_facets_nth. Qed.
Lemma has_lt h x k : has h x k -> x < List.length h.
Proof. intros (c & N & _). eapply nth_error_lt; eauto. Qed.

Lemma shape_ok_mono h h' sh : (forall x k, has h x k -> has h' x k) -> shape_ok h sh -> shape_ok h' sh.
Proof. intros M. destruct sh; cbn; auto. intros [A B]. split; auto. Qed.

Lemma base_ok_mono h h' b : (forall x k, has h x k -> has h' x k) -> base_ok h b -> base_ok h' b.
Proof.
  intros M [A B C D F G H I]. split; auto. intros sh S. eapply shape_ok_mono; eauto.
Qed.

Lemma cell_ok_mono h h' c : (forall x k, has h x k -> has h' x k) -> cell_ok h c -> cell_ok h' c.
Proof.
  intros M. destruct c; cbn; auto.
  - now apply base_ok_mono.
  - intros [Nd H]. split; [exact Nd|]. intros k p I. eauto.
  - intros (y & -> & H). eauto.
Qed.

Lemma owns_lt h b c : base_ok h b -> owns b c -> c < List.length h.
Proof.
  intros K O. destruct O as [| | |f m S Q|f m S Q|sl e S].
  - eapply has_lt, k_facets; eauto.
  - eapply has_lt, k_fdefs; eauto.
  - eapply has_lt, k_inherits; eauto.
  - pose proof (k_shape _ _ K _ S) as [A _]. eapply has_lt; eauto.
  - pose proof (k_shape _ _ K _ S) as [_ A]. eapply has_lt; eauto.
  - pose proof (k_shape _ _ K _ S) as A. eapply has_lt; eauto.
Qed.

Lemma good_weak (P Q : addr -> Prop) s : (forall x, P x -> Q x) -> good P s -> good Q s.
Proof. intros W [A B C D]. split; auto. intros x b G H. eauto. Qed.

(** A pending type that is known is no longer pending. *)
Lemma good_done (P Q : addr -> Prop) s a : known (heap s) a -> (forall x, P x -> x = a \/ Q x) -> good P s -> good Q s.
Proof.
  intros (b0 & G0 & K) W [A B C D]. split; auto. intros x b G H. destruct (W x (B x b G H)) as [->|]; [|auto].
  rewrite G0 in G. injection G as <-. contradiction.
Qed.

(** ** Writing a cell *)

Lemma has_upd h a c c' x k : nth_error h a = Some c -> sort_of c' = sort_of c -> has h x k <-> has (upd a c' h) x k.
Proof.
  intros N S. destruct (Nat.eq_dec x a) as [->|D].
  - unfold has. rewrite N, (nth_error_upd_eq _ _ _ _ N). split; intros (c0 & Q & R); injection Q as <-; eexists; split; eauto; congruence.
  - unfold has. now rewrite nth_error_upd_neq by auto.
Qed.

Lemma get_base_upd h a c x b : get_base (upd a c h) x = Some b -> get_base h x = Some b \/ (x = a /\ c = CBase b).
Proof.
  destruct (Nat.eq_dec x a) as [->|D].
  - intros G. apply get_base_nth in G. right. split; auto. pose proof (nth_error_lt _ _ _ G) as L. rewrite upd_length in L.
    rewrite nth_error_upd_lt in G by auto. now injection G.
  - intros G. left. apply get_base_nth. apply get_base_nth in G. now rewrite nth_error_upd_neq in G by auto.
Qed.

(** A container. *)
Lemma write_box P s a c c' : nth_error (heap s) a = Some c -> sort_of c' = sort_of c -> sort_of c <> TBase ->
  cell_ok (heap s) c' -> good P s ->
  good P (after (write a c') s) /\ forall U, moves U s (after (write a c') s).
Proof.
  intros N S NB K G. unfold after, write. cbn [snd].
  assert (M : forall x k, has (heap s) x k -> has (upd a c' (heap s)) x k) by (intros x k; apply (has_upd _ _ _ _ _ _ N S)).
  assert (BE : forall x b, get_base (upd a c' (heap s)) x = Some b -> get_base (heap s) x = Some b).
  { intros x b Gb. apply get_base_upd in Gb. destruct Gb as [|[-> ->]]; auto. cbn in S. congruence. }
  assert (BB : forall x b, get_base (heap s) x = Some b -> get_base (upd a c' (heap s)) x = Some b).
  { intros x b Gb. apply get_base_nth. apply get_base_nth in Gb. rewrite nth_error_upd_neq; auto. intros <-. rewrite N in Gb. injection Gb as ->. now apply NB. }
  split; [|intros U; split; cbn; auto].
  - destruct G as [A B C D]. split; cbn.
    + intros x c0 Q. destruct (Nat.eq_dec x a) as [->|Dx].
      * rewrite (nth_error_upd_eq _ _ _ _ N) in Q. injection Q as <-. eapply cell_ok_mono; eauto.
      * rewrite nth_error_upd_neq in Q by auto. eapply cell_ok_mono; eauto.
    + intros x b Gb. apply BE in Gb. eauto.
    + intros x b x' b' o Gx Gx'. apply BE in Gx. apply BE in Gx'. now apply C.
    + destruct D as [D1 D2]. split; cbn.
      * intros x b Gb. apply BE in Gb. eauto.
      * intros x y bx by_ Gx Gy. apply BE in Gx. apply BE in Gy. eauto.
  - intros x _ (b & Gb & H). exists b. auto.
Qed.

(** A base. *)
Lemma write_base (U P Q : addr -> Prop) s a b b' : get_base (heap s) a = Some b -> base_ok (heap s) b' ->
  b_id b' = b_id b ->
  (forall c, owns b' c -> owns b c \/ forall x bx, get_base (heap s) x = Some bx -> ~ owns bx c) ->
  (hollow b' -> Q a) -> (forall x, P x -> x = a \/ Q x) -> (U a \/ (~ hollow b -> ~ hollow b')) ->
  good P s -> good Q (after (write a (CBase b')) s) /\ moves U s (after (write a (CBase b')) s).
Proof.
  intros Ga K Id Ow Ho W Kn G. unfold after, write. cbn [snd].
  pose proof (proj1 (get_base_nth _ _ _) Ga) as N.
  assert (M : forall x k, has (heap s) x k -> has (upd a (CBase b') (heap s)) x k) by (intros x k; apply (has_upd (heap s) a (CBase b) (CBase b') x k N eq_refl)).
  assert (Ga' : get_base (upd a (CBase b') (heap s)) a = Some b').
  { apply get_base_nth. eapply nth_error_upd_eq; eauto. }
  assert (BE : forall x bx, get_base (upd a (CBase b') (heap s)) x = Some bx -> (x = a /\ bx = b') \/ (x <> a /\ get_base (heap s) x = Some bx)).
  { intros x bx Gb. destruct (Nat.eq_dec x a) as [->|D]; [left; split; congruence|right]. split; auto. apply get_base_upd in Gb. destruct Gb as [|[-> _]]; congruence. }
  split; [|split; cbn; auto].
  - destruct G as [A B C D]. split; cbn.
    + intros x c0 Qx. destruct (Nat.eq_dec x a) as [->|Dx].
      * rewrite (nth_error_upd_eq _ _ _ _ N) in Qx. injection Qx as <-. eapply cell_ok_mono; eauto.
      * rewrite nth_error_upd_neq in Qx by auto. eapply cell_ok_mono; eauto.
    + intros x bx Gx H. destruct (BE _ _ Gx) as [[-> ->]|[D0 Gx']]; [auto|]. destruct (W x (B _ _ Gx' H)); [contradiction|auto].
    + intros x bx y by_ o Gx Gy Ox Oy. destruct (BE _ _ Gx) as [[-> ->]|[Dx Gx']]; destruct (BE _ _ Gy) as [[-> ->]|[Dy Gy']]; auto.
      * destruct (Ow _ Ox) as [Ob|Nb]; [eapply C; eauto|destruct (Nb _ _ Gy' Oy)].
      * destruct (Ow _ Oy) as [Ob|Nb]; [eapply C; eauto|destruct (Nb _ _ Gx' Ox)].
      * eapply C; eauto.
    + destruct D as [D1 D2]. split; cbn.
      * intros x bx Gx. destruct (BE _ _ Gx) as [[-> ->]|[Dx Gx']]; [rewrite Id|]; eauto.
      * intros x y bx by_ Gx Gy. destruct (BE _ _ Gx) as [[-> ->]|[Dx Gx']]; destruct (BE _ _ Gy) as [[-> ->]|[Dy Gy']]; auto; try rewrite Id; eauto.
  - intros x NU (bx & Gx & H). destruct (Nat.eq_dec x a) as [->|D]; [exists b'; rewrite Ga in Gx; injection Gx as <-; split; auto; tauto|].
    exists bx. split; auto. apply get_base_nth. apply get_base_nth in Gx. now rewrite nth_error_upd_neq by auto.
Qed.

(** ** Allocating a container *)

Lemma has_snoc h c x k : has h x k -> has (h ++ [c]) x k.
Proof. intros (c0 & N & S). exists c0. split; auto. rewrite nth_error_app1; auto. eapply nth_error_lt; eauto. Qed.

Lemma has_new h c : has (h ++ [c]) (List.length h) (sort_of c).
Proof. exists c. split; auto. apply nth_error_snoc. Qed.

Lemma get_base_snoc h c x b : get_base (h ++ [c]) x = Some b -> get_base h x = Some b \/ (x = List.length h /\ c = CBase b).
Proof.
  intros G. apply get_base_nth in G. destruct (Nat.eq_dec x (List.length h)) as [->|D].
  - right. rewrite nth_error_snoc in G. injection G as ->. auto.
  - left. apply get_base_nth. now rewrite nth_error_snoc_old in G by auto.
Qed.

Lemma get_base_old h c x b : get_base h x = Some b -> get_base (h ++ [c]) x = Some b.
Proof. intros G. apply get_base_nth. apply get_base_nth in G. rewrite nth_error_app1; auto. eapply nth_error_lt; eauto. Qed.

Lemma alloc_box P s c : sort_of c <> TBase -> cell_ok (heap s) c -> good P s ->
  good P (after (alloc c) s) /\ (forall U, moves U s (after (alloc c) s))
  /\ has (heap (after (alloc c) s)) (List.length (heap s)) (sort_of c)
  /\ (forall x b, get_base (heap (after (alloc c) s)) x = Some b -> get_base (heap s) x = Some b /\ ~ owns b (List.length (heap s))).
Proof.
  intros NB K G. unfold after, alloc. cbn [snd heap].
  assert (BE : forall x b, get_base (heap s ++ [c]) x = Some b -> get_base (heap s) x = Some b).
  { intros x b Gb. apply get_base_snoc in Gb. destruct Gb as [|[_ ->]]; auto. now destruct NB. }
  split; [|split; [intros U; split; cbn; [intros; now apply has_snoc|]|split; [apply has_new|]]].
  - destruct G as [A B C D]. split; cbn.
    + intros x c0 Q. destruct (Nat.eq_dec x (List.length (heap s))) as [->|Dx].
      * rewrite nth_error_snoc in Q. injection Q as <-. eapply cell_ok_mono; [|eauto]. intros; now apply has_snoc.
      * rewrite nth_error_snoc_old in Q by auto. eapply cell_ok_mono; [|eauto]. intros; now apply has_snoc.
    + intros x b Gb. apply BE in Gb. eauto.
    + intros x b x' b' o Gx Gx'. apply BE in Gx. apply BE in Gx'. now apply C.
    + destruct D as [D1 D2]. split; cbn.
      * intros x b Gb. apply BE in Gb. eauto.
      * intros x y bx by_ Gx Gy. apply BE in Gx. apply BE in Gy. eauto.
  - intros x _ (b & Gb & H). exists b. split; auto. now apply get_base_old.
  - intros x b Gb. apply BE in Gb. split; auto. intros O. destruct G as [A _ _ _]. apply get_base_nth in Gb.
    pose proof (owns_lt _ _ _ (A _ _ Gb) O). lia.
Qed.

(** ** A new base *)

Lemma make_base_good (P : addr -> Prop) nm loc s a s' : make_base nm loc s = (Ok a, s') -> good P s ->
  good (fun x => x = a \/ P x) s' /\ (forall U, moves U s s') /\ has (heap s') a TBase /\ List.length (heap s) <= a.
Proof.
  intros H G. pose proof (numbers_make_base nm loc s) as Nm. red in Nm. unfold after in Nm. rewrite H in Nm. cbn in Nm.
  unfold make_base, bind, gen_id, alloc, put_shape, ret in H. cbn in H. injection H as <- <-.
  set (h := heap s) in *. set (b0 := Base _ _ _ _ _ _ _ _ _ _ _ _ _ _ _ _ _ _ _) in *.
  assert (Eh : ((h ++ [CFacets []]) ++ [CProps []]) ++ [CSlice []] = h ++ [CFacets []; CProps []; CSlice []]) by (now rewrite <- !app_assoc).
  rewrite Eh in *. set (h3 := h ++ [CFacets []; CProps []; CSlice []]) in *.
  assert (L3 : List.length h3 = 3 + List.length h) by (unfold h3; rewrite app_length; cbn; lia).
  assert (M : forall x k, has h x k -> has (h3 ++ [CBase b0]) x k).
  { intros x k (c & N & S). exists c. split; auto. pose proof (nth_error_lt _ _ _ N). unfold h3. rewrite <- app_assoc, nth_error_app1; auto. }
  assert (BE : forall x b, get_base (h3 ++ [CBase b0]) x = Some b -> get_base h x = Some b \/ (x = List.length h3 /\ b = b0)).
  { intros x b Gb. apply get_base_snoc in Gb. destruct Gb as [Gb|[-> Q]]; [left|right; split; auto; congruence].
    apply get_base_nth in Gb. apply get_base_nth. unfold h3 in Gb. destruct (Nat.lt_ge_cases x (List.length h)) as [X|X].
    - now rewrite nth_error_app1 in Gb by auto.
    - rewrite nth_error_app2 in Gb by auto. destruct (x - List.length h) as [|[|[|k]]]; try discriminate. destruct k; discriminate. }
  assert (New : forall k c, nth_error [CFacets []; CProps []; CSlice []] k = Some c -> has (h3 ++ [CBase b0]) (k + List.length h) (sort_of c)).
  { intros k c N. exists c. split; auto. unfold h3. rewrite <- app_assoc, nth_error_app2 by lia. replace (k + List.length h - List.length h) with k by lia.
    rewrite nth_error_app1; auto. eapply nth_error_lt; eauto. }
  assert (F0 : b_facets b0 = List.length h /\ b_fdefs b0 = 1 + List.length h /\ b_inherits b0 = 2 + List.length h
     /\ b_link b0 = None /\ b_alias b0 = None /\ b_shape b0 = None /\ b_visited b0 = false /\ b_unwrapped b0 = false).
  { unfold b0; cbn [b_facets b_fdefs b_inherits b_link b_alias b_shape b_visited b_unwrapped]. rewrite !app_length. cbn. repeat split; lia. }
  clearbody b0. destruct F0 as (F1 & F2 & F3 & F4 & F5 & F6 & F7 & F8).
  assert (Kb : base_ok (h3 ++ [CBase b0]) b0).
  { split; try congruence; try (split; congruence).
    - rewrite F1. apply (New 0 (CFacets []) eq_refl).
    - rewrite F2. apply (New 1 (CProps []) eq_refl).
    - rewrite F3. apply (New 2 (CSlice []) eq_refl). }
  assert (Ob : forall c, owns b0 c -> List.length h <= c).
  { intros c O. destruct O; try congruence; lia. }
  assert (Gn : get_base (h3 ++ [CBase b0]) (List.length h3) = Some b0) by (apply get_base_nth; apply nth_error_snoc).
  split; [|split; [intros U; split; cbn; auto|cbn; split; [eapply get_base_has; eauto|rewrite L3; fold h; lia]]].
  - destruct G as [A B C D]. fold h in A, B, C. split; cbn.
    + intros x c Q. destruct (Nat.lt_ge_cases x (List.length h)) as [X|X].
      * eapply cell_ok_mono; [exact M|]. apply (A x). unfold h3 in Q. rewrite <- app_assoc, nth_error_app1 in Q; auto.
      * unfold h3 in Q. rewrite <- app_assoc, nth_error_app2 in Q by auto. destruct (x - List.length h) as [|[|[|[|k]]]]; cbn in Q.
        -- injection Q as <-. exact I.
        -- injection Q as <-. split; [constructor|intros ? ? []].
        -- injection Q as <-. intros ? [].
        -- injection Q as <-. exact Kb.
        -- destruct k; discriminate.
    + intros x b Gb Ho. destruct (BE _ _ Gb) as [Gb'|[-> _]]; eauto.
    + intros x bx y by_ o Gx Gy Ox Oy. destruct (BE _ _ Gx) as [Gx'|[-> ->]]; destruct (BE _ _ Gy) as [Gy'|[-> ->]]; auto.
      * eapply C; eauto.
      * exfalso. apply get_base_nth in Gx'. pose proof (owns_lt _ _ _ (A _ _ Gx') Ox). specialize (Ob _ Oy). lia.
      * exfalso. apply get_base_nth in Gy'. pose proof (owns_lt _ _ _ (A _ _ Gy') Oy). specialize (Ob _ Ox). lia.
    + eapply numbers_numbered; [|exact D]. exact Nm.
  - intros x _ (b & Gb & H). exists b. split; auto. apply get_base_nth. apply get_base_nth in Gb. pose proof (nth_error_lt _ _ _ Gb).
    unfold h3. rewrite <- app_assoc, nth_error_app1; auto.
Qed.

(** * The RAML object *)

Definition H_ (p : pst) : list cell := heap (p_st p).
Definition isb (p : pst) (x : addr) : Prop := has (H_ p) x TBase.

Record fine (U : addr -> Prop) (p : pst) : Prop := {
  f_heap : good (fun x => U x \/ In x (p_todo p)) (p_st p);
  f_under : forall x, U x -> isb p x;
  f_todo : forall x, In x (p_todo p) -> isb p x;
  f_dts : forall path x, In (path, x) (p_dts p) -> has (H_ p) x TDT;
  f_frags : forall path u o, In (path, FDT u o) (p_frags p) -> exists y, o = Some y /\ isb p y;
  f_libs : forall lib k a, In lib (p_libs p) -> In (k, a) (l_types lib) \/ In (k, a) (l_annots lib) -> isb p a
}.

Record fwd (U : addr -> Prop) (p p' : pst) : Prop := {
  w_moves : moves U (p_st p) (p_st p');
  w_todo : exists l, p_todo p' = p_todo p ++ l
}.

Lemma fwd_refl U p : fwd U p p.
Proof. split; [apply moves_refl|exists []; now rewrite app_nil_r]. Qed.
Lemma fwd_trans U p1 p2 p3 : fwd U p1 p2 -> fwd U p2 p3 -> fwd U p1 p3.
Proof.
  intros [A (l & B)] [C (l' & D)]. split; [eapply moves_trans; eauto|]. exists (l ++ l'). now rewrite D, B, app_assoc.
Qed.
Lemma fwd_weak (U V : addr -> Prop) p p' : (forall x, U x -> V x) -> fwd U p p' -> fwd V p p'.
Proof. intros W [[A B] T]. split; auto. split; auto. Qed.

Lemma isb_fwd U p p' x : fwd U p p' -> isb p x -> isb p' x.
Proof. intros [[A _] _]. apply A. Qed.
Lemma has_fwd U p p' x k : fwd U p p' -> has (H_ p) x k -> has (H_ p') x k.
Proof. intros [[A _] _]. apply A. Qed.
Lemma known_fwd U p p' x : ~ U x -> fwd U p p' -> known (H_ p) x -> known (H_ p') x.
Proof. intros N [[_ B] _]. now apply B. Qed.

Lemma fine_weak (U V : addr -> Prop) p : (forall x, U x -> V x) -> (forall x, V x -> isb p x) -> fine U p -> fine V p.
Proof. intros W B [A C D F G I]. split; auto. eapply good_weak; [|exact A]. cbn. intros x [|]; auto. Qed.

Lemma fine_done (U V : addr -> Prop) p a : known (H_ p) a -> (forall x, U x -> x = a \/ V x) -> (forall x, V x -> U x) ->
  fine U p -> fine V p.
Proof.
  intros K W W' [A C D F G I]. split; auto. eapply good_done; [exact K| |exact A]. cbn. intros x [X|]; [destruct (W x X)|]; auto.
Qed.

(** Another heap. *)
Definition with_st (p : pst) (s : st) : pst :=
  PSt s (p_libs p) (p_frags p) (p_dts p) (p_exts p) (p_types p) (p_annots p) (p_todo p) (p_facets p).

Lemma hp_ok {A} (m : M A) p a p' : hp m p = (Ok a, p') -> exists s', m (p_st p) = (Ok a, s') /\ p' = with_st p s'.
Proof. unfold hp. destruct (m (p_st p)) as [r s'] eqn:Q. intros H. injection H as -> <-. eauto. Qed.

Lemma fine_st (U V : addr -> Prop) p s' : fine U p -> good (fun x => V x \/ In x (p_todo p)) s' ->
  (forall W : addr -> Prop, (forall x, U x -> W x) -> moves W (p_st p) s') -> (forall x, V x -> has (heap s') x TBase) ->
  fine V (with_st p s') /\ fwd U p (with_st p s').
Proof.
  intros [A C D F G I] Gs Mv Vb. assert (M : forall x k, has (H_ p) x k -> has (heap s') x k) by (apply (m_sort U); apply Mv; auto).
  split.
  - split; cbn; auto.
    + intros x T. apply M. now apply D.
    + intros path x T. apply M. eauto.
    + intros path u o T. destruct (G _ _ _ T) as (y & Y1 & Y2). exists y. split; auto. now apply M.
    + intros lib k a T T'. apply M. eapply I; eauto.
  - split; [apply Mv; auto|]. exists []. cbn. now rewrite app_nil_r.
Qed.

(** Steps that do not touch the heap, the fragments or the list of types to
    resolve. *)
Definition quiet {A} (m : D A) : Prop := forall p r p', m p = (r, p') ->
  p_st p' = p_st p /\ p_libs p' = p_libs p /\ p_frags p' = p_frags p /\ p_dts p' = p_dts p /\ p_todo p' = p_todo p.

Lemma quiet_lift {A} (r : res A) : quiet (dlift r).
Proof. intros p r' p' H. injection H as _ <-. repeat split. Qed.
Lemma quiet_ret {A} (a : A) : quiet (dret a).
Proof. intros p r' p' H. injection H as _ <-. repeat split. Qed.
Lemma quiet_get : quiet dget.
Proof. intros p r' p' H. injection H as _ <-. repeat split. Qed.
Lemma quiet_ext e : quiet (put_ext e).
Proof. intros p r' p' H. injection H as _ <-. repeat split. Qed.
Lemma quiet_facets a fs : quiet (put_facets a fs).
Proof. intros p r' p' H. injection H as _ <-. repeat split. Qed.
Lemma quiet_type n l a : quiet (put_type n l a).
Proof. intros p r' p' H. injection H as _ <-. repeat split. Qed.
Lemma quiet_annot n l a : quiet (put_annot n l a).
Proof. intros p r' p' H. injection H as _ <-. repeat split. Qed.
Lemma quiet_bind {A B} (m : D A) (f : A -> D B) : quiet m -> (forall a, quiet (f a)) -> quiet (dbind m f).
Proof.
  intros Hm Hf p r p' H. unfold dbind in H. destruct (m p) as [[a| | |] p1] eqn:Q; pose proof (Hm _ _ _ Q) as X.
  - destruct X as (X1 & X2 & X3 & X4 & X5). destruct (Hf _ _ _ _ H) as (Y1 & Y2 & Y3 & Y4 & Y5). repeat split; congruence.
  - injection H as _ <-. exact X.
  - injection H as _ <-. exact X.
  - injection H as _ <-. exact X.
Qed.

Lemma quiet_make_ext E loc k v : quiet (make_ext E loc k v).
Proof.
  unfold make_ext. destruct (String.eqb _ _); [apply quiet_lift|].
  apply quiet_bind; [apply quiet_lift|]. intros x. apply quiet_bind; [apply quiet_get|]. intros p.
  apply quiet_bind; [apply quiet_ext|]. intros. apply quiet_ret.
Qed.

Lemma quiet_entries E loc l : quiet (example_entries E loc l).
Proof.
  induction l as [| |k v l IH] using pair_induction; [apply quiet_ret|apply quiet_lift|].
  cbn [example_entries]. apply quiet_bind; [|intros; exact IH].
  destruct (String.eqb _ _); [apply quiet_lift|].
  destruct (_ || _); [apply quiet_lift|].
  destruct (is_annotation _); [|apply quiet_ret]. apply quiet_bind; [apply quiet_make_ext|intros; apply quiet_ret].
Qed.

Lemma quiet_example E loc v : quiet (example E loc v).
Proof.
  unfold example. destruct (y_kind v); try apply quiet_lift.
  apply quiet_bind; [apply quiet_lift|]. intros [x|]; [|apply quiet_lift].
  apply quiet_bind; [apply quiet_entries|]. intros. apply quiet_lift.
Qed.

Lemma quiet_example_map E loc l : forall m, quiet (example_map E loc l m).
Proof.
  induction l as [| |k v l IH] using pair_induction; intros m; [apply quiet_ret|apply quiet_lift|].
  cbn [example_map]. apply quiet_bind; [apply quiet_example|]. intros. apply IH.
Qed.

(** A computation that keeps the model fine. *)
Definition keep (U : addr -> Prop) {A} (m : D A) (Pre : pst -> Prop) (Post : A -> pst -> Prop) : Prop :=
  forall p a p', fine U p -> Pre p -> m p = (Ok a, p') -> fine U p' /\ fwd U p p' /\ Post a p'.

Definition any_ {A} : A -> pst -> Prop := fun _ _ => True.

Lemma keep_quiet U {A} (m : D A) Pre : quiet m -> keep U m Pre any_.
Proof.
  intros Q p a p' [A0 C D0 F G I] _ H. destruct (Q _ _ _ H) as (Q1 & Q2 & Q3 & Q4 & Q5).
  split; [|split; [|exact Logic.I]].
  - split; unfold isb, H_ in *; rewrite ?Q1, ?Q2, ?Q3, ?Q4, ?Q5; auto.
  - split; [rewrite Q1; apply moves_refl|]. exists []. now rewrite app_nil_r.
Qed.

Lemma keep_ret U {A} (x : A) (Pre : pst -> Prop) (Post : A -> pst -> Prop) : (forall p, Pre p -> Post x p) -> keep U (dret x) Pre Post.
Proof. intros P p a p' F Pr H. injection H as <- <-. split; [exact F|]. split; [apply fwd_refl|auto]. Qed.

Lemma keep_lift U {A} (r : res A) (Pre : pst -> Prop) (Post : A -> pst -> Prop) : (forall x p, r = Ok x -> Pre p -> Post x p) -> keep U (dlift r) Pre Post.
Proof. intros P p a p' F Pr H. injection H as -> <-. split; [exact F|]. split; [apply fwd_refl|auto]. Qed.

Lemma keep_err U {A} (r : res A) (Pre : pst -> Prop) (Post : A -> pst -> Prop) : (forall x, r <> Ok x) -> keep U (dlift r) Pre Post.
Proof. intros P. apply keep_lift. intros x p Q. destruct (P x Q). Qed.

Lemma keep_pre U {A} (m : D A) (Pre Pre' : pst -> Prop) (Post Post' : A -> pst -> Prop) :
  (forall p, Pre' p -> Pre p) -> (forall a p, Post a p -> Post' a p) -> keep U m Pre Post -> keep U m Pre' Post'.
Proof. intros P Q K p a p' F Pr H. destruct (K p a p' F (P _ Pr) H) as (X & Y & Z). auto. Qed.

Lemma keep_sub U {A} (m : D A) (Pre Pre' : pst -> Prop) (Post : A -> pst -> Prop) :
  (forall p, Pre' p -> Pre p) -> keep U m Pre Post -> keep U m Pre' Post.
Proof. intros P. now apply keep_pre. Qed.
Lemma keep_any U {A} (m : D A) (Pre : pst -> Prop) (Post : A -> pst -> Prop) : keep U m Pre Post -> keep U m Pre any_.
Proof. apply keep_pre; auto. intros; exact I. Qed.

(** [Pre] survives. *)
Definition firm (U : addr -> Prop) (P : pst -> Prop) : Prop := forall p p', fwd U p p' -> P p -> P p'.

Lemma keep_bind U {A B} (m : D A) (f : A -> D B) (Pre : pst -> Prop) Q (Post : B -> pst -> Prop) :
  firm U Pre -> keep U m Pre Q -> (forall a, keep U (f a) (fun p => Pre p /\ Q a p) Post) -> keep U (dbind m f) Pre Post.
Proof.
  intros S Hm Hf p b p' F Pr H. unfold dbind in H. destruct (m p) as [[a| | |] p1] eqn:Em; try discriminate.
  destruct (Hm _ _ _ F Pr Em) as (F1 & W1 & Q1). destruct (Hf a _ _ _ F1 (conj (S _ _ W1 Pr) Q1) H) as (F2 & W2 & P2).
  split; [exact F2|]. split; [eapply fwd_trans; eauto|exact P2].
Qed.

Lemma firm_true U : firm U (fun _ => True). Proof. intros p p' _ _. exact I. Qed.
Lemma firm_isb U a : firm U (fun p => isb p a). Proof. intros p p' W. now apply (isb_fwd U). Qed.
Lemma firm_has U a k : firm U (fun p => has (H_ p) a k). Proof. intros p p' W. now apply (has_fwd U). Qed.
Lemma firm_known (U : addr -> Prop) a : ~ U a -> firm U (fun p => known (H_ p) a). Proof. intros N p p' W. now apply (known_fwd U). Qed.
Lemma firm_and U P Q : firm U P -> firm U Q -> firm U (fun p => P p /\ Q p).
Proof. intros A B p p' W [X Y]. split; [eapply A|eapply B]; eauto. Qed.

(** ** Single steps on the heap *)

Lemma keep_rd U {A} (get : list cell -> addr -> option A) a (Pre : pst -> Prop) :
  keep U (hp (rd get a)) Pre (fun x p => get (H_ p) a = Some x /\ Pre p).
Proof.
  intros p x p' F P H. apply hp_ok in H. destruct H as (s' & H & ->). apply rd_ok in H. destruct H as [-> G].
  assert (X : with_st p (p_st p) = p) by (destruct p; reflexivity). rewrite X. split; [exact F|]. split; [apply fwd_refl|]. auto.
Qed.

(** Writing a container. *)
Lemma step_box U p a c c' s' : fine U p -> nth_error (H_ p) a = Some c -> sort_of c' = sort_of c -> sort_of c <> TBase ->
  cell_ok (H_ p) c' -> write a c' (p_st p) = (Ok tt, s') -> fine U (with_st p s') /\ fwd U p (with_st p s').
Proof.
  intros F N S NB K H. destruct (write_box _ _ _ _ _ N S NB K (f_heap _ _ F)) as [G M].
  assert (X : s' = after (write a c') (p_st p)) by (unfold after; now rewrite H). rewrite <- X in G, M.
  apply (fine_st U U); auto. intros x Ux. apply (m_sort _ _ _ (M U)). now apply (f_under _ _ F).
Qed.

(** Writing a base. *)
Lemma step_base (U V : addr -> Prop) p a b b' s' : fine U p -> get_base (H_ p) a = Some b -> base_ok (H_ p) b' ->
  b_id b' = b_id b ->
  (forall c, owns b' c -> owns b c \/ forall x bx, get_base (H_ p) x = Some bx -> ~ owns bx c) ->
  (hollow b' -> V a \/ In a (p_todo p)) -> (forall x, U x -> x = a \/ V x) -> (forall x, V x -> U x) ->
  (U a \/ (~ hollow b -> ~ hollow b')) ->
  write a (CBase b') (p_st p) = (Ok tt, s') -> fine V (with_st p s') /\ fwd U p (with_st p s').
Proof.
  intros F Ga K Id Ow Ho W W' Kn H.
  assert (X : s' = after (write a (CBase b')) (p_st p)) by (unfold after; now rewrite H).
  assert (G : forall W0 : addr -> Prop, (forall x, U x -> W0 x) -> good (fun x => V x \/ In x (p_todo p)) s' /\ moves W0 (p_st p) s').
  { intros W0 UW. rewrite X. apply (write_base W0 (fun x => U x \/ In x (p_todo p)) _ (p_st p) a b b'); auto.
    - intros x [Ux|]; [destruct (W x Ux)|]; auto.
    - destruct Kn; auto.
    - exact (f_heap _ _ F). }
  apply (fine_st U V); auto.
  - apply (G U); auto.
  - intros W0 UW. now apply G.
  - intros x Vx. apply (m_sort _ _ _ (proj2 (G U (fun _ u => u)))). apply (f_under _ _ F). auto.
Qed.

(** Allocating a container. *)
Lemma step_alloc U p c x s' : fine U p -> sort_of c <> TBase -> cell_ok (H_ p) c -> alloc c (p_st p) = (Ok x, s') ->
  fine U (with_st p s') /\ fwd U p (with_st p s') /\ has (heap s') x (sort_of c)
  /\ (forall y b, get_base (heap s') y = Some b -> get_base (H_ p) y = Some b /\ ~ owns b x).
Proof.
  intros F NB K H. destruct (alloc_box _ _ _ NB K (f_heap _ _ F)) as (G & M & N & B).
  assert (X : s' = after (alloc c) (p_st p)) by (unfold after; now rewrite H).
  assert (Xx : x = List.length (heap (p_st p))) by (unfold alloc in H; now injection H). subst x. rewrite <- X in G, M, N, B.
  destruct (fine_st U U p s' F G (fun W _ => M W)) as [F' W']; [|auto].
  intros y Uy. apply (m_sort _ _ _ (M U)). now apply (f_under _ _ F).
Qed.

Lemma base_ok_at U p a b : fine U p -> get_base (H_ p) a = Some b -> base_ok (H_ p) b.
Proof. intros F G. apply get_base_nth in G. exact (g_cells _ _ (f_heap _ _ F) _ _ G). Qed.

(** Fields that matter here are not changed. *)
Definition soft (f : base -> base) : Prop := forall b,
  (b_id (f b) = b_id b /\ b_type (f b) = b_type b /\ b_inherits (f b) = b_inherits b /\ b_alias (f b) = b_alias b)
  /\ (b_link (f b) = b_link b /\ b_facets (f b) = b_facets b /\ b_fdefs (f b) = b_fdefs b)
  /\ (b_unwrapped (f b) = b_unwrapped b /\ b_visited (f b) = b_visited b /\ b_shape (f b) = b_shape b).

Lemma owns_same b b' c : b_facets b' = b_facets b -> b_fdefs b' = b_fdefs b -> b_inherits b' = b_inherits b -> b_shape b' = b_shape b ->
  owns b' c -> owns b c.
Proof.
  intros A B C D O. destruct O as [| | |f m S Q|f m S Q|sl e S].
  - rewrite A. constructor.
  - rewrite B. constructor.
  - rewrite C. constructor.
  - rewrite D in S. eapply ow_props; eauto.
  - rewrite D in S. eapply ow_pprops; eauto.
  - rewrite D in S. eapply ow_anyof; eauto.
Qed.

Lemma upd_base_ok a f s u s' : upd_base a f s = (Ok u, s') -> exists b, get_base (heap s) a = Some b /\ write a (CBase (f b)) s = (Ok tt, s').
Proof.
  intros H. unfold upd_base in H. apply bind_inv in H. destruct H as (b & s1 & R & W). apply rd_ok in R. destruct R as [-> G].
  exists b. split; auto. unfold write in *. injection W as _ <-. reflexivity.
Qed.

Lemma keep_soft U a f Pre : soft f -> keep U (hp (upd_base a f)) Pre any_.
Proof.
  intros S p u p' F _ H. apply hp_ok in H. destruct H as (s' & H & ->). apply upd_base_ok in H. destruct H as (b & G & W).
  destruct (S b) as ((S1 & S2 & S3 & S4) & (S5 & S6 & S7) & (S8 & S9 & S10)). pose proof (base_ok_at _ _ _ _ F G) as K.
  destruct (step_base U U p a b (f b) s' F G) as [F' W']; auto.
  - destruct K as [K1 K2 K3 K4 K5 K6 K7 K8]. split; rewrite ?S2, ?S3, ?S4, ?S5, ?S6, ?S7, ?S8, ?S9, ?S10; auto.
  - intros c O. left. eapply owns_same; [| | | |exact O]; auto.
  - intros Ho. apply (g_hollow _ _ (f_heap _ _ F) _ _ G). unfold hollow in *. now rewrite S10 in Ho.
  - right. unfold hollow. now rewrite S10.
  - split; auto. split; auto. exact I.
Qed.

Lemma keep_link U a l : keep U (hp (upd_base a (set_link (Some l)))) (fun p => has (H_ p) l TDT) any_.
Proof.
  intros p u p' F Hl H. apply hp_ok in H. destruct H as (s' & H & ->). apply upd_base_ok in H. destruct H as (b & G & W).
  pose proof (base_ok_at _ _ _ _ F G) as K.
  destruct (step_base U U p a b (set_link (Some l) b) s' F G) as [F' W']; auto.
  - destruct K as [K1 K2 K3 K4 K5 K6 K7 K8]. split; cbn; auto. intros d Q. injection Q as <-. exact Hl.
  - intros c O. left. eapply owns_same; [| | | |exact O]; reflexivity.
  - intros Ho. apply (g_hollow _ _ (f_heap _ _ F) _ _ G). exact Ho.
  - split; auto. split; auto. exact I.
Qed.

Lemma keep_alias U a y : keep U (hp (upd_base a (set_alias (Some y)))) (fun p => isb p y) any_.
Proof.
  intros p u p' F Hl H. apply hp_ok in H. destruct H as (s' & H & ->). apply upd_base_ok in H. destruct H as (b & G & W).
  pose proof (base_ok_at _ _ _ _ F G) as K.
  destruct (step_base U U p a b (set_alias (Some y) b) s' F G) as [F' W']; auto.
  - destruct K as [K1 K2 K3 K4 K5 K6 K7 K8]. split; cbn; auto. intros d Q. injection Q as <-. exact Hl.
  - intros c O. left. eapply owns_same; [| | | |exact O]; reflexivity.
  - intros Ho. apply (g_hollow _ _ (f_heap _ _ F) _ _ G). exact Ho.
  - split; auto. split; auto. exact I.
Qed.

Lemma keep_type U a t Pre : builtin t = true -> keep U (hp (upd_base a (set_type t))) Pre (fun _ p => exists b, get_base (H_ p) a = Some b /\ b_type b = t).
Proof.
  intros B p u p' F _ H. apply hp_ok in H. destruct H as (s' & H & ->). apply upd_base_ok in H. destruct H as (b & G & W).
  pose proof (base_ok_at _ _ _ _ F G) as K.
  destruct (step_base U U p a b (set_type t b) s' F G) as [F' W']; auto.
  - destruct K as [K1 K2 K3 K4 K5 K6 K7 K8]. split; cbn; auto.
  - intros c O. left. eapply owns_same; [| | | |exact O]; reflexivity.
  - intros Ho. apply (g_hollow _ _ (f_heap _ _ F) _ _ G). exact Ho.
  - split; auto. split; auto. exists (set_type t b). split; [|reflexivity]. unfold write in W. injection W as <-. cbn.
    apply get_base_nth. apply get_base_nth in G. eapply nth_error_upd_eq; eauto.
Qed.

(** The boxes of a shape. *)
Definition boxes (sh : shape) (c : addr) : Prop :=
  match sh with
  | SObject f => o_props f = Some c \/ o_pprops f = Some c
  | SUnion sl _ => c = sl
  | _ => False
  end.

Lemma boxes_own b sh c : b_shape b = Some sh -> boxes sh c -> owns b c.
Proof.
  intros S. destruct sh; cbn; try tauto.
  - intros [Q|Q]; [eapply ow_props|eapply ow_pprops]; eauto.
  - intros ->. eapply ow_anyof; eauto.
Qed.

Lemma owns_shape b sh c : owns (set_shape (Some sh) b) c -> c = b_facets b \/ c = b_fdefs b \/ c = b_inherits b \/ boxes sh c.
Proof.
  intros O. destruct O as [| | |f m S Q|f m S Q|sl e S]; cbn in *; auto; injection S as ->; cbn; auto.
Qed.

(** A shape of a known kind. *)
Lemma step_shape (U V : addr -> Prop) p a b sh s' : fine U p -> get_base (H_ p) a = Some b -> builtin (b_type b) = true ->
  shape_ok (H_ p) sh -> sh <> SUnknown ->
  (forall c, boxes sh c -> (exists sh0, b_shape b = Some sh0 /\ boxes sh0 c) \/ forall x bx, get_base (H_ p) x = Some bx -> ~ owns bx c) ->
  (forall x, U x -> x = a \/ V x) -> (forall x, V x -> U x) ->
  write a (CBase (set_shape (Some sh) b)) (p_st p) = (Ok tt, s') ->
  fine V (with_st p s') /\ fwd U p (with_st p s') /\ known (heap s') a.
Proof.
  intros F G B S N Bx W W' H. pose proof (base_ok_at _ _ _ _ F G) as K.
  assert (NH : ~ hollow (set_shape (Some sh) b)). { intros [Q|Q]; cbn in Q; congruence. }
  destruct (step_base U V p a b (set_shape (Some sh) b) s' F G) as [F' W1]; auto.
  - destruct K as [K1 K2 K3 K4 K5 K6 K7 K8]. split; cbn; auto. intros sh0 Q. injection Q as <-. exact S.
  - intros c O. apply owns_shape in O. destruct O as [->|[->|[->|O]]]; [left; constructor|left; constructor|left; constructor|].
    destruct (Bx c O) as [(sh0 & Q & O')|]; [left; eapply boxes_own; eauto|auto].
  - tauto.
  - split; auto. split; auto. exists (set_shape (Some sh) b). split; auto. unfold write in H. injection H as <-. cbn.
    apply get_base_nth. apply get_base_nth in G. eapply nth_error_upd_eq; eauto.
Qed.

Lemma keep_props_set U m k pr : keep U (hp (props_set m k pr)) (fun p => isb p (p_base pr)) any_.
Proof.
  intros p u p' F Hp H. apply hp_ok in H. destruct H as (s' & H & ->). unfold props_set in H. apply bind_inv in H.
  destruct H as (l & s1 & R & W). apply rd_ok in R. destruct R as [-> G]. apply get_props_nth in G.
  destruct (step_box U p m (CProps l) (CProps (oset k pr l)) s' F G) as [F' W']; auto; try discriminate.
  - pose proof (g_cells _ _ (f_heap _ _ F) _ _ G) as [Nd C]. split; [now apply oset_keys|]. intros k0 p0 I.
    assert (X : In (k0, p0) l \/ p0 = pr).
    { clear - I. induction l as [|[k1 y] l IH]; cbn in I; [destruct I as [I|[]]; injection I as _ <-; auto|].
      destruct (String.eqb k k1); cbn in I; destruct I as [I|I].
      - injection I as _ <-. auto.
      - left. now right.
      - left. now left.
      - destruct (IH I); auto. left. now right. }
    destruct X as [X| ->]; [exact (C k0 p0 X)|exact Hp].
  - unfold write in *. injection W as _ <-. reflexivity.
  - split; auto. split; auto. exact I.
Qed.

Lemma known_not_hollow h a b : known h a -> get_base h a = Some b -> exists sh, b_shape b = Some sh /\ sh <> SUnknown.
Proof.
  intros (b0 & G0 & N) G. rewrite G0 in G. injection G as <-. destruct (b_shape b0) as [sh|] eqn:S.
  - exists sh. split; auto. intros ->. apply N. now right.
  - destruct N. now left.
Qed.

Section Shape.
Variable E : denv.
Variable inc_dt : string -> D addr.
Variable inc_ne : string -> D unit.
Hypothesis Idt : forall U x, keep U (inc_dt x) (fun _ => True) (fun d p => has (H_ p) d TDT).
Hypothesis Ine : forall U x, keep U (inc_ne x) (fun _ => True) any_.

Section Rec.
Variable rec : ynode -> string -> string -> D addr.
Hypothesis Rec : forall U v name loc, keep U (rec v name loc) (fun _ => True) (fun x p => isb p x).

Lemma keep_custom U a loc k v Pre : keep U (custom_facet E a loc k v) Pre any_.
Proof.
  intros p u p' F _ H. unfold custom_facet, dbind, dlift in H.
  destruct (root_node (d_y E) loc v) as [x| | |]; try discriminate. apply hp_ok in H. destruct H as (s' & H & ->).
  apply bind_inv in H. destruct H as (b & s1 & R & H). apply rd_ok in R. destruct R as [-> G].
  apply bind_inv in H. destruct H as (m & s1 & R & H). apply rd_ok in R. destruct R as [-> Gm]. apply get_facets_nth in Gm.
  destruct (step_box U p (b_facets b) (CFacets m) (CFacets (oset k x m)) s' F Gm) as [F' W']; auto; try discriminate.
  - exact I.
  - unfold write in *. injection H as _ <-. reflexivity.
  - split; auto. split; auto. exact I.
Qed.

Lemma keep_own_facet U {X} a loc k v (r : res (option X)) mk :
  keep U (own_facet E a loc k v r mk)
    (fun p => exists b sh, get_base (H_ p) a = Some b /\ b_shape b = Some sh /\ sh <> SUnknown
       /\ forall f, r = Ok (Some f) -> mk f <> SUnknown /\ (forall h, shape_ok h sh -> shape_ok h (mk f)) /\ forall c, boxes (mk f) c -> boxes sh c)
    any_.
Proof.
  intros p u p' F (b & sh & G & S & N & R) H. unfold own_facet, dbind, dlift in H. destruct r as [[f|]| | |]; try discriminate.
  - destruct (R f eq_refl) as (N' & So & Bx). apply hp_ok in H. destruct H as (s' & H & ->). apply upd_base_ok in H. destruct H as (b0 & G0 & W).
    fold (H_ p) in G0. rewrite G in G0. injection G0 as <-. pose proof (base_ok_at _ _ _ _ F G) as K.
    destruct (step_shape U U p a b (mk f) s' F G) as (F' & W' & _); auto.
    + exact (k_kind _ _ K _ S N).
    + apply So. exact (k_shape _ _ K _ S).
    + intros c Bc. left. eauto.
    + split; auto. split; auto. exact I.
  - apply (keep_custom U a loc k v (fun _ => True) p u p' F I H).
Qed.

Lemma keep_property U loc k v Pre : keep U (property rec loc k v) Pre (fun pr p => isb p (p_base pr)).
Proof.
  unfold property. destruct (chomp_optional k) as [name opt].
  apply (keep_pre U _ (fun _ => True) _ (fun pr p => isb p (p_base pr)) _); auto.
  apply (keep_bind U _ _ _ (fun x p => isb p x)); [apply firm_true|apply Rec|]. intros x.
  apply (keep_pre U _ (fun p => isb p x) _ (fun pr p => isb p (p_base pr)) _); [tauto|auto|].
  apply (keep_bind U _ _ _ any_); [apply firm_isb|apply (keep_sub U _ (fun _ => True)); [auto|]; apply (keep_any U _ _ _ (keep_rd U get_base x (fun _ => True)))|].
  intros b. destruct (make_property k name opt (b_required b)) as [nm req|]; [apply keep_ret|apply keep_err; discriminate].
  intros p [Q _]. exact Q.
Qed.

Lemma keep_own_props U a get set : (get = o_props /\ set = set_props) \/ (get = o_pprops /\ set = set_pprops) ->
  keep U (own_props a get set) (fun _ => True) (fun m p => has (H_ p) m TProps).
Proof.
  intros GS p m p' F _ H. unfold own_props in H. apply hp_ok in H. destruct H as (s' & H & ->).
  apply bind_inv in H. destruct H as (b & s1 & R & H). apply rd_ok in R. destruct R as [-> G]. fold (H_ p) in G.
  destruct (b_shape b) as [[]|] eqn:S; try discriminate. pose proof (base_ok_at _ _ _ _ F G) as K. pose proof (k_shape _ _ K _ S) as [So1 So2].
  destruct (get f) as [m0|] eqn:Gf.
  - unfold ret in H. injection H as <- <-. assert (X : with_st p (p_st p) = p) by (destruct p; reflexivity). rewrite X.
    split; auto. split; [apply fwd_refl|]. destruct GS as [[-> ->]|[-> ->]]; auto.
  - apply bind_inv in H. destruct H as (m1 & s1 & Al & H). apply bind_inv in H. destruct H as (u & s2 & Up & H).
    unfold ret in H. injection H as <- <-.
    assert (Cp : cell_ok (H_ p) (CProps [])) by (split; [constructor|intros ? ? []]).
    destruct (step_alloc U p (CProps []) m1 s1 F ltac:(discriminate) Cp Al) as (F1 & W1 & N1 & B1).
    apply upd_base_ok in Up. destruct Up as (b1 & G1 & Wr). destruct (B1 _ _ G1) as [G1' O1]. rewrite G in G1'. injection G1' as <-.
    pose proof (base_ok_at _ _ _ _ F1 G1) as K1. pose proof (k_shape _ _ K1 _ S) as [So1' So2'].
    destruct (step_shape U U (with_st p s1) a b (SObject (set (Some m1) f)) s2 F1 G1) as (F2 & W2 & _); auto; try discriminate.
    + exact (k_kind _ _ K _ S ltac:(discriminate)).
    + destruct GS as [[-> ->]|[-> ->]]; cbn; split; auto; intros m Q; injection Q as <-; exact N1.
    + intros c Bc. assert (X : c = m1 \/ boxes (SObject f) c).
      { destruct GS as [[-> ->]|[-> ->]]; cbn in Bc |- *; destruct Bc as [Q|Q]; auto; left; congruence. }
      destruct X as [->|Bf]; [right|left; eauto]. intros x bx Gx. apply B1 in Gx. tauto.
    + cbn in F2, W2. split; [exact F2|]. split; [eapply fwd_trans; [exact W1|exact W2]|]. eapply (has_fwd U (with_st p s1)); [exact W2|exact N1].
Qed.

Lemma keep_one_property U a loc k v : keep U (one_property E rec a loc k v) (fun _ => True) any_.
Proof.
  unfold one_property. destruct (chomp_optional k) as [name opt]. destruct (is_pattern_name name).
  - apply (keep_bind U _ _ _ any_); [apply firm_true|apply (keep_any U _ _ _ (keep_own_props U a _ _ (or_intror (conj eq_refl eq_refl))))|]. intros m.
    apply (keep_pre U _ (fun _ => True) _ any_ _); auto.
    apply (keep_bind U _ _ _ (fun x p => isb p x)); [apply firm_true|apply Rec|]. intros x.
    apply (keep_pre U _ (fun p => isb p x) _ any_ _); [tauto|auto|].
    apply (keep_bind U _ _ _ any_); [apply firm_isb|apply (keep_sub U _ (fun _ => True)); [auto|]; apply (keep_any U _ _ _ (keep_rd U get_base x (fun _ => True)))|].
    intros b. apply (keep_pre U _ (fun p => isb p x) _ any_ _); [tauto|auto|].
    apply (keep_bind U _ _ _ any_); [apply firm_isb|apply keep_quiet, quiet_lift|]. intros [|kk re]; [apply keep_err; discriminate|].
    apply (keep_sub U _ _ _ _) with (2 := keep_props_set U _ _ _). cbn. tauto.
  - apply (keep_bind U _ _ _ any_); [apply firm_true|apply (keep_any U _ _ _ (keep_own_props U a _ _ (or_introl (conj eq_refl eq_refl))))|]. intros m.
    apply (keep_pre U _ (fun _ => True) _ any_ _); auto.
    apply (keep_bind U _ _ _ (fun pr p => isb p (p_base pr))); [apply firm_true|apply keep_property|]. intros pr.
    apply (keep_sub U _ _ _ _) with (2 := keep_props_set U _ _ _). cbn. tauto.
Qed.

Lemma keep_properties U a loc l : keep U (properties E rec a loc l) (fun _ => True) any_.
Proof.
  induction l as [| |k v l IH] using pair_induction; [apply keep_ret; intros; exact I|apply keep_ret; intros; exact I|].
  cbn [properties]. apply (keep_bind U _ _ _ any_); [apply firm_true|apply keep_one_property|]. intros. apply (keep_sub U _ (fun _ => True)); auto.
Qed.

Lemma arr_same k v f f' : arr_facet E k v f = Ok (Some f') -> a_items f' = a_items f.
Proof.
  unfold arr_facet. repeat (destruct (String.eqb _ _)); unfold rbind, or_err.
  - destruct (d_uint E v); intros H; [injection H as <-; reflexivity|discriminate].
  - destruct (d_uint E v); intros H; [injection H as <-; reflexivity|discriminate].
  - destruct (d_bool E v); intros H; [injection H as <-; reflexivity|discriminate].
  - discriminate.
Qed.

Lemma obj_same k v f f' : obj_facet E k v f = Ok (Some f') -> o_props f' = o_props f /\ o_pprops f' = o_pprops f.
Proof.
  unfold obj_facet. repeat (destruct (String.eqb _ _)); unfold rbind, or_err.
  - destruct (d_bool E v); intros H; [injection H as <-; auto|discriminate].
  - destruct (d_text E v); intros H; [injection H as <-; auto|discriminate].
  - destruct (d_any E v); intros H; [injection H as <-; auto|discriminate].
  - destruct (d_uint E v); intros H; [injection H as <-; auto|discriminate].
  - destruct (d_uint E v); intros H; [injection H as <-; auto|discriminate].
  - discriminate.
Qed.

Lemma keep_items (U : addr -> Prop) a x : keep U (hp (upd_arr a (set_items (Some x)))) (fun p => isb p x) any_.
Proof.
  intros p u p' F Hx H. apply hp_ok in H. destruct H as (s' & H & ->). unfold upd_arr in H. apply bind_inv in H.
  destruct H as (b & s1 & R & H). apply rd_ok in R. destruct R as [-> G]. fold (H_ p) in G.
  assert (Id : forall s0, ret tt (p_st p) = (Ok u, s0) -> with_st p s0 = p) by (intros s0 Q; injection Q as _ <-; destruct p; reflexivity).
  destruct (b_shape b) as [[]|] eqn:S; try (rewrite (Id _ H); split; [exact F|split; [apply fwd_refl|exact I]]).
  pose proof (base_ok_at _ _ _ _ F G) as K.
  destruct (step_shape U U p a b (SArray (set_items (Some x) f)) s' F G) as (F' & W' & _); auto; try discriminate.
  - exact (k_kind _ _ K _ S ltac:(discriminate)).
  - cbn. intros i Q. injection Q as <-. exact Hx.
  - unfold write in *. injection H as _ <-. reflexivity.
  - split; auto. split; auto. exact I.
Qed.

Lemma keep_facet (U : addr -> Prop) a loc k v : keep U (facet E rec a loc k v) (fun p => known (H_ p) a) any_.
Proof.
  intros p u p' F Kn H. unfold facet in H. unfold dbind at 1 in H. destruct (hp (rd get_base a) p) as [[b| | |] p1] eqn:R; try discriminate.
  destruct (keep_rd U get_base a (fun _ => True) p b p1 F I R) as (_ & _ & G & _).
  assert (X : p1 = p). { apply hp_ok in R. destruct R as (s' & R & ->). apply rd_ok in R. destruct R as [-> _]. destruct p; reflexivity. } subst p1.
  destruct (known_not_hollow _ _ _ Kn G) as (sh & S & N). rewrite S in H.
  assert (Own : forall X (r : res (option X)) mk, (forall f, r = Ok (Some f) -> mk f <> SUnknown /\ (forall h, shape_ok h sh -> shape_ok h (mk f)) /\ forall c, boxes (mk f) c -> boxes sh c) ->
     own_facet E a loc k v r mk p = (Ok u, p') -> fine U p' /\ fwd U p p' /\ any_ u p').
  { intros X r mk R0 H0. apply (keep_own_facet U a loc k v r mk p u p' F); auto. exists b, sh. auto. }
  assert (Easy : forall X (mk : X -> shape) f, (mk f <> SUnknown /\ (forall h, shape_ok h (mk f)) /\ forall c, ~ boxes (mk f) c) ->
     mk f <> SUnknown /\ (forall h, shape_ok h sh -> shape_ok h (mk f)) /\ forall c, boxes (mk f) c -> boxes sh c).
  { intros X mk f (A & B & C). split; auto. split; auto. intros c D0. destruct (C c D0). }
  assert (Cu : custom_facet E a loc k v p = (Ok u, p') -> fine U p' /\ fwd U p p' /\ any_ u p').
  { intros H0. exact (keep_custom U a loc k v (fun _ => True) p u p' F I H0). }
  assert (Nop : dret tt p = (Ok u, p') -> fine U p' /\ fwd U p p' /\ any_ u p').
  { intros H0. injection H0 as _ <-. split; auto. split; [apply fwd_refl|exact I]. }
  destruct sh; cbv beta iota in H.
  - exact (Cu H).
  - exact (Cu H).
  - refine (Own _ _ SInt _ H). intros f0 _. apply (Easy _ SInt f0). split; [discriminate|]. split; [intros h; exact I|intros c []].
  - refine (Own _ _ SNum _ H). intros f0 _. apply (Easy _ SNum f0). split; [discriminate|]. split; [intros h; exact I|intros c []].
  - refine (Own _ _ SStr _ H). intros f0 _. apply (Easy _ SStr f0). split; [discriminate|]. split; [intros h; exact I|intros c []].
  - refine (Own _ _ SFile _ H). intros f0 _. apply (Easy _ SFile f0). split; [discriminate|]. split; [intros h; exact I|intros c []].
  - refine (Own _ _ SBool _ H). intros f0 _. apply (Easy _ SBool f0). split; [discriminate|]. split; [intros h; exact I|intros c []].
  - refine (Own _ _ SDateTime _ H). intros f0 _. apply (Easy _ SDateTime f0). split; [discriminate|]. split; [intros h; exact I|intros c []].
  - exact (Cu H).
  - exact (Cu H).
  - exact (Cu H).
  - destruct (String.eqb k "items").
    + assert (Kp : keep U (dbind (rec v "items" loc) (fun x => hp (upd_arr a (set_items (Some x))))) (fun _ => True) any_).
      { apply (keep_bind U _ _ _ (fun x p => isb p x)); [apply firm_true|apply Rec|]. intros x.
        apply (keep_sub U _ _ _ _) with (2 := keep_items U a x). cbn. tauto. }
      exact (Kp p u p' F I H).
    + refine (Own _ _ SArray _ H). intros f0 Q. split; [discriminate|]. split; [|intros c []]. intros h. cbn. now rewrite (arr_same _ _ _ _ Q).
  - destruct (String.eqb k "properties").
    + destruct (negb _); [discriminate|]. exact (keep_properties U a loc (y_content v) p u p' F I H).
    + refine (Own _ _ SObject _ H). intros f0 Q. destruct (obj_same _ _ _ _ Q) as [Q1 Q2]. split; [discriminate|]. cbn. rewrite Q1, Q2. auto.
  - exact (Nop H).
  - exact (Nop H).
  - exact (Nop H).
  - exact (Nop H).
Qed.

Lemma keep_facets (U : addr -> Prop) a loc l : ~ U a -> keep U (facets E rec a loc l) (fun p => known (H_ p) a) any_.
Proof.
  intros N. induction l as [|[k v] l IH]; [apply keep_ret; intros; exact I|]. cbn [facets].
  apply (keep_bind U _ _ _ any_); [now apply firm_known|apply keep_facet|]. intros. apply (keep_sub U _ _ _ _) with (2 := IH). tauto.
Qed.

Definition minus (U : addr -> Prop) (a x : addr) : Prop := U x /\ x <> a.

Lemma empty_cases t s :
  (builtin t = false /\ empty_shape t s = (Ok SUnknown, s))
  \/ (builtin t = true /\ exists sh, empty_shape t s = (Ok sh, s) /\ sh <> SUnknown /\ (forall h, shape_ok h sh) /\ forall c, ~ boxes sh c)
  \/ (builtin t = true /\ exists sl s', alloc (CSlice []) s = (Ok sl, s') /\ empty_shape t s = (Ok (SUnion sl None), s')).
Proof.
  destruct (builtin t) eqn:B.
  - right. unfold builtin in B. cbn [existsb] in B.
    repeat (apply orb_true_iff in B; destruct B as [B|B]; [apply String.eqb_eq in B; subst t|]); [..|discriminate];
      try (left; split; [reflexivity|]; eexists; split; [reflexivity|]; split; [discriminate|]; split; [intros h; cbn; auto; try (split; discriminate); discriminate|intros c; cbn; intuition discriminate]).
    right. split; [reflexivity|]. exists (List.length (heap s)). eexists. split; [reflexivity|]. reflexivity.
  - left. split; auto. unfold builtin in B. cbn [existsb] in B. repeat (apply orb_false_iff in B; destruct B as [? B]). unfold empty_shape.
    repeat (match goal with Q : String.eqb t ?x = false |- context [String.eqb t ?x] => rewrite Q end). reflexivity.
Qed.

Lemma upd_upd {A} n (x y : A) l : upd n y (upd n x l) = upd n y l.
Proof. revert n; induction l as [|z l IH]; intros [|n]; cbn; auto. now rewrite IH. Qed.

Lemma dbind_ok {A B} (m : D A) (f : A -> D B) p b p' : dbind m f p = (Ok b, p') -> exists a p1, m p = (Ok a, p1) /\ f a p1 = (Ok b, p').
Proof. unfold dbind. destruct (m p) as [[a| | |] p1]; intros H; try discriminate. eauto. Qed.

Lemma minus_fine U a p : fine U p -> known (H_ p) a -> fine (minus U a) p.
Proof. intros F K. apply (fine_done U (minus U a) p a); auto; unfold minus; [|tauto]. intros x Ux. destruct (Nat.eq_dec x a); auto. Qed.

Lemma minus_back (U : addr -> Prop) a p : fine (minus U a) p -> (forall x, U x -> isb p x) -> fine U p.
Proof. intros F B. apply (fine_weak (minus U a) U); auto. unfold minus. tauto. Qed.

Lemma fwd_minus U a p p' : fwd (minus U a) p p' -> fwd U p p'.
Proof. apply fwd_weak. unfold minus. tauto. Qed.

Lemma concrete_known U a loc t fs p u p' : builtin t = true -> fine U p -> concrete E rec a loc t fs p = (Ok u, p') ->
  fine (minus U a) p' /\ fwd U p p' /\ known (H_ p') a.
Proof.
  intros B F H. unfold concrete in H. apply dbind_ok in H. destruct H as (u1 & p1 & H1 & H).
  destruct (keep_type U a t (fun _ => True) B _ _ _ F I H1) as (F1 & W1 & (b & G & T)).
  apply dbind_ok in H. destruct H as (sh & p2 & H2 & H). apply hp_ok in H2. destruct H2 as (s2 & H2 & ->).
  apply dbind_ok in H. destruct H as (u3 & p3 & H3 & H). apply hp_ok in H3. destruct H3 as (s3 & H3 & ->).
  apply upd_base_ok in H3. destruct H3 as (b' & G' & Wr).
  assert (Mid : sh <> SUnknown /\ fine (minus U a) (with_st (with_st p1 s2) s3) /\ fwd U p1 (with_st (with_st p1 s2) s3) /\ known (heap s3) a).
  { destruct (empty_cases t (p_st p1)) as [[Q _]|[(_ & sh0 & Es & N & So & Nb)|(_ & sl & s' & Al & Es)]]; [congruence| |].
    - rewrite Es in H2. injection H2 as <- <-. assert (X : with_st p1 (p_st p1) = p1) by (destruct p1; reflexivity). rewrite X in *.
      fold (H_ p1) in G'. rewrite G in G'. injection G' as <-. split; auto.
      apply (step_shape U (minus U a) p1 a b sh0 s3 F1 G); auto; unfold minus; try tauto.
      + congruence.
      + intros c Bc. destruct (Nb c Bc).
      + intros x Ux. destruct (Nat.eq_dec x a); auto.
    - rewrite Es in H2. injection H2 as <- <-. split; [discriminate|].
      assert (Cp : cell_ok (H_ p1) (CSlice [])) by (intros ? []).
      destruct (step_alloc U p1 (CSlice []) sl s' F1 ltac:(discriminate) Cp Al) as (F2 & W2 & N2 & B2).
      cbn in G'. destruct (B2 _ _ G') as [G2 _]. rewrite G in G2. injection G2 as <-.
      destruct (step_shape U (minus U a) (with_st p1 s') a b (SUnion sl None) s3 F2 G') as (F3 & W3 & K3); unfold minus; try tauto; try discriminate.
      + congruence.
      + cbn. intros c ->. right. intros x bx Gx. apply B2 in Gx. tauto.
      + intros x Ux. destruct (Nat.eq_dec x a); auto.
      + split; [exact F3|]. split; [eapply fwd_trans; [exact W2|exact W3]|exact K3]. }
  destruct Mid as (N & F3 & W3 & K3).
  assert (Na : ~ minus U a a) by (unfold minus; tauto).
  assert (Fs : forall l, facets E rec a loc l (with_st (with_st p1 s2) s3) = (Ok u, p') -> fine (minus U a) p' /\ fwd U p p' /\ known (H_ p') a).
  { intros l H0. destruct (keep_facets (minus U a) a loc l Na _ _ _ F3 K3 H0) as (F4 & W4 & _). split; auto. split.
    - eapply fwd_trans; [exact W1|]. eapply fwd_trans; [exact W3|]. now apply fwd_minus in W4.
    - exact (known_fwd _ _ _ _ Na W4 K3). }
  destruct sh; try (apply (Fs _ H)). now destruct N.
Qed.

Lemma concrete_open (U : addr -> Prop) a loc t fs p u p' : builtin t = false -> U a -> fine U p -> concrete E rec a loc t fs p = (Ok u, p') ->
  fine U p' /\ fwd U p p' /\ exists b, get_base (H_ p') a = Some b /\ b_shape b = Some SUnknown.
Proof.
  intros B Ua F H. unfold concrete in H. apply dbind_ok in H. destruct H as (u1 & p1 & H1 & H). apply hp_ok in H1. destruct H1 as (s1 & H1 & ->).
  apply dbind_ok in H. destruct H as (sh & p2 & H2 & H). apply hp_ok in H2. destruct H2 as (s2 & H2 & ->).
  destruct (empty_cases t (p_st (with_st p s1))) as [[_ Q]|[[Q _]|[Q _]]]; try congruence. rewrite Q in H2. injection H2 as <- <-.
  apply dbind_ok in H. destruct H as (u3 & p3 & H3 & H). apply hp_ok in H3. destruct H3 as (s3 & H3 & ->).
  apply upd_base_ok in H1. destruct H1 as (b & G & W1). apply upd_base_ok in H3. destruct H3 as (b' & G' & W3). cbn in G', W3.
  set (b1 := set_shape (Some SUnknown) (set_type t b)). fold (H_ p) in G.
  assert (Y : b' = set_type t b).
  { unfold write in W1. injection W1 as <-. cbn in G'. apply get_base_nth in G, G'. rewrite (nth_error_upd_eq _ _ _ _ G) in G'. now injection G'. }
  assert (Wr : write a (CBase b1) (p_st p) = (Ok tt, s3)).
  { unfold write in W1, W3 |- *. injection W1 as <-. injection W3 as <-. subst b'. cbn. unfold b1. now rewrite upd_upd. }
  destruct (step_base U U p a b b1 s3 F G) as [F3 W]; auto.
  - pose proof (base_ok_at _ _ _ _ F G) as [K1 K2 K3 K4 K5 K6 K7 K8]. split; cbn; auto.
    + intros sh0 Q0. injection Q0 as <-. exact I.
    + congruence.
  - intros c O. apply owns_shape in O. cbn in O. destruct O as [->|[->|[->|[]]]]; left; constructor.
  - change (put_facets a fs (with_st p s3) = (Ok u, p')) in H.
    assert (Q3 : get_base (heap s3) a = Some b1). { unfold write in Wr. injection Wr as <-. cbn. apply get_base_nth in G. apply get_base_nth. eapply nth_error_upd_eq; eauto. }
    destruct (keep_quiet U _ (fun _ => True) (quiet_facets a fs) _ _ _ F3 I H) as (F4 & W4 & _).
    split; auto. split; [eapply fwd_trans; eauto|]. exists b1. split; auto. unfold put_facets in H. injection H as <- <-. exact Q3.
Qed.

(** A new container for the facet definitions or the parents. *)
Lemma keep_fdefs U a : keep U (m <- hp (alloc (CProps [])) ;; hp (upd_base a (set_fdefs m)) ;;; dret m)%D (fun _ => True) any_.
Proof.
  intros p m p' F _ H. apply dbind_ok in H. destruct H as (x & p1 & H1 & H). apply hp_ok in H1. destruct H1 as (s1 & H1 & ->).
  apply dbind_ok in H. destruct H as (u & p2 & H2 & H). apply hp_ok in H2. destruct H2 as (s2 & H2 & ->). injection H as <- <-.
  apply upd_base_ok in H2. destruct H2 as (b & G & Wr). cbn in G.
  assert (Cp : cell_ok (H_ p) (CProps [])) by (split; [constructor|intros ? ? []]).
  destruct (step_alloc U p (CProps []) x s1 F ltac:(discriminate) Cp H1) as (F1 & W1 & N1 & B1).
  pose proof (base_ok_at _ _ _ _ F1 G) as K.
  destruct (step_base U U (with_st p s1) a b (set_fdefs x b) s2 F1 G) as [F2 W2]; auto.
  - destruct K as [K1 K2 K3 K4 K5 K6 K7 K8]. split; cbn; auto.
  - intros c O. destruct O as [| | |f m S Q|f m S Q|sl e S]; cbn in *.
    + left. constructor.
    + right. intros y by_ Gy. now apply B1 in Gy.
    + left. constructor.
    + left. eapply ow_props; eauto.
    + left. eapply ow_pprops; eauto.
    + left. eapply ow_anyof; eauto.
  - intros Ho. apply (g_hollow _ _ (f_heap _ _ F1) _ _ G). exact Ho.
  - split; [exact F2|]. split; [eapply fwd_trans; eauto|exact I].
Qed.

Lemma keep_inherits U a l : keep U (sl <- hp (alloc (CSlice l)) ;; hp (upd_base a (set_inherits sl)) ;;; dret sl)%D (fun p => forall y, In y l -> isb p y) any_.
Proof.
  intros p m p' F Hl H. apply dbind_ok in H. destruct H as (x & p1 & H1 & H). apply hp_ok in H1. destruct H1 as (s1 & H1 & ->).
  apply dbind_ok in H. destruct H as (u & p2 & H2 & H). apply hp_ok in H2. destruct H2 as (s2 & H2 & ->). injection H as <- <-.
  apply upd_base_ok in H2. destruct H2 as (b & G & Wr). cbn in G.
  assert (Cp : cell_ok (H_ p) (CSlice l)) by exact Hl.
  destruct (step_alloc U p (CSlice l) x s1 F ltac:(discriminate) Cp H1) as (F1 & W1 & N1 & B1).
  pose proof (base_ok_at _ _ _ _ F1 G) as K.
  destruct (step_base U U (with_st p s1) a b (set_inherits x b) s2 F1 G) as [F2 W2]; auto.
  - destruct K as [K1 K2 K3 K4 K5 K6 K7 K8]. split; cbn; auto.
  - intros c O. destruct O as [| | |f m S Q|f m S Q|sl e S]; cbn in *.
    + left. constructor.
    + left. constructor.
    + right. intros y by_ Gy. now apply B1 in Gy.
    + left. eapply ow_props; eauto.
    + left. eapply ow_pprops; eauto.
    + left. eapply ow_anyof; eauto.
  - intros Ho. apply (g_hollow _ _ (f_heap _ _ F1) _ _ G). exact Ho.
  - split; [exact F2|]. split; [eapply fwd_trans; eauto|exact I].
Qed.

Lemma keep_facet_defs U m loc l : keep U (facet_defs rec m loc l) (fun _ => True) any_.
Proof.
  cut (forall n l, List.length l <= n -> keep U (facet_defs rec m loc l) (fun _ => True) any_); [intros X; exact (X _ l (le_n _))|].
  clear l. induction n as [|n IH]; intros [|k [|v l]] L; cbn in L; try lia; cbn [facet_defs];
    try (apply keep_ret; intros; exact I); try (apply keep_err; discriminate).
  apply (keep_bind U _ _ _ (fun pr p => isb p (p_base pr))); [apply firm_true|apply keep_property|]. intros pr.
  apply (keep_sub U _ (fun p => isb p (p_base pr))); [tauto|].
  apply (keep_bind U _ _ _ any_); [apply firm_isb|apply keep_props_set|]. intros u.
  apply (keep_sub U _ (fun _ => True)); [auto|]. apply IH. lia.
Qed.

Lemma soft_disp x : soft (set_disp x). Proof. intros b. repeat split. Qed.
Lemma soft_desc x : soft (set_desc x). Proof. intros b. repeat split. Qed.
Lemma soft_required x : soft (set_required x). Proof. intros b. repeat split. Qed.
Lemma soft_example x : soft (set_example x). Proof. intros b. repeat split. Qed.
Lemma soft_examples x : soft (set_examples x). Proof. intros b. repeat split. Qed.
Lemma soft_default x : soft (set_default x). Proof. intros b. repeat split. Qed.
Lemma soft_domain x : soft (set_domain x). Proof. intros b. repeat split. Qed.

Lemma keep_then U {A B} (m : D A) (f : A -> D B) : keep U m (fun _ => True) any_ -> (forall a, keep U (f a) (fun _ => True) any_) ->
  keep U (dbind m f) (fun _ => True) any_.
Proof. intros X Y. apply (keep_bind U _ _ _ any_); [apply firm_true|exact X|]. intros a. apply (keep_sub U _ (fun _ => True)); auto. Qed.
Lemma keep_lift_any U {A} (r : res A) : keep U (dlift r) (fun _ => True) any_.
Proof. apply keep_lift. intros; exact I. Qed.
Lemma keep_rd_any U {A} (get : list cell -> addr -> option A) a : keep U (hp (rd get a)) (fun _ => True) any_.
Proof. exact (keep_any U _ _ _ (keep_rd U get a (fun _ => True))). Qed.

Lemma keep_decode_example U a loc v : keep U (decode_example E a loc v) (fun _ => True) any_.
Proof.
  unfold decode_example. apply keep_then; [apply keep_rd_any|]. intros b. destruct (b_examples b); [apply keep_err; discriminate|].
  apply keep_then; [apply keep_quiet, quiet_example|]. intros x. apply keep_soft, soft_example.
Qed.

Lemma keep_decode_examples U a loc v : keep U (decode_examples E inc_ne a loc v) (fun _ => True) any_.
Proof.
  unfold decode_examples. apply keep_then; [apply keep_rd_any|]. intros b. destruct (b_example b); [apply keep_err; discriminate|].
  destruct (y_kind v); try (apply keep_err; discriminate).
  - apply keep_then; [apply keep_quiet, quiet_example_map|]. intros x. apply keep_soft, soft_examples.
  - destruct (String.eqb _ _); [|apply keep_err; discriminate]. apply keep_then; [apply Ine|]. intros x. apply keep_soft, soft_examples.
Qed.

Lemma keep_entry U a loc k v : keep U (entry E inc_ne rec a loc k v) (fun _ => True) any_.
Proof.
  unfold entry.
  destruct (String.eqb k "displayName"); [apply keep_then; [apply keep_lift_any|intros; apply keep_soft, soft_disp]|].
  destruct (String.eqb k "description"); [apply keep_then; [apply keep_lift_any|intros; apply keep_soft, soft_desc]|].
  destruct (String.eqb k "required"); [apply keep_then; [apply keep_lift_any|intros; apply keep_soft, soft_required]|].
  destruct (String.eqb k "facets").
  { intros p u p' F _ H. apply dbind_ok in H. destruct H as (m & p1 & H1 & H). apply dbind_ok in H. destruct H as (u2 & p2 & H2 & H).
    assert (Q : (m <- hp (alloc (CProps [])) ;; hp (upd_base a (set_fdefs m)) ;;; dret m)%D p = (Ok m, p2)).
    { unfold dbind. rewrite H1. rewrite H2. reflexivity. }
    destruct (keep_fdefs U a _ _ _ F I Q) as (F2 & W2 & _). destruct (keep_facet_defs U m loc (y_content v) _ _ _ F2 I H) as (F3 & W3 & _).
    split; [exact F3|]. split; [eapply fwd_trans; eauto|exact I]. }
  destruct (String.eqb k "example"); [apply keep_decode_example|].
  destruct (String.eqb k "examples"); [apply keep_decode_examples|].
  destruct (String.eqb k "default"); [apply keep_then; [apply keep_lift_any|intros; apply keep_soft, soft_default]|].
  destruct (String.eqb k "allowedTargets"); [apply keep_ret; intros; exact I|].
  apply keep_then; [apply keep_quiet, quiet_make_ext|]. intros x. apply keep_then; [apply keep_rd_any|]. intros b. apply keep_soft, soft_domain.
Qed.

Lemma keep_decode_entries U a loc l : forall t fs, keep U (decode_entries E inc_ne rec a loc l t fs) (fun _ => True) any_.
Proof.
  cut (forall n l, List.length l <= n -> forall t fs, keep U (decode_entries E inc_ne rec a loc l t fs) (fun _ => True) any_); [intros X; exact (X _ l (le_n _))|].
  clear l. induction n as [|n IH]; intros [|k [|v l]] L t fs; cbn in L; try lia; cbn [decode_entries];
    try (apply keep_ret; intros; exact I); try (apply keep_err; discriminate).
  destruct (String.eqb (y_value k) "type"); [apply IH; lia|]. destruct (known_key (y_value k)); [|apply IH; lia].
  apply keep_then; [apply keep_entry|]. intros. apply IH. lia.
Qed.

Lemma keep_decode U a loc v : keep U (decode E inc_ne rec a loc v) (fun _ => True) any_.
Proof.
  unfold decode. destruct (y_kind v); try (apply keep_err; discriminate); try (apply keep_ret; intros; exact I).
  apply keep_then; [apply keep_decode_entries|]. intros. apply keep_ret; intros; exact I.
Qed.

Lemma firm_all U l : firm U (fun p => forall y, In y l -> isb p y).
Proof. intros p p' W H y I. eapply isb_fwd; eauto. Qed.

Lemma keep_parents U name loc l : keep U (parents rec name loc l) (fun _ => True) (fun xs p => forall y, In y xs -> isb p y).
Proof.
  induction l as [|v l IH]; cbn [parents]; [apply keep_ret; intros p _ y []|].
  destruct (y_kind v); try (apply keep_err; discriminate). destruct (String.eqb _ _); [apply keep_err; discriminate|].
  apply (keep_bind U _ _ _ (fun x p => isb p x)); [apply firm_true|apply Rec|]. intros x. apply (keep_sub U _ (fun p => isb p x)); [tauto|].
  apply (keep_bind U _ _ _ (fun xs p => forall y, In y xs -> isb p y)); [apply firm_isb| |].
  - apply (keep_sub U _ (fun _ => True)); auto.
  - intros xs. apply keep_ret. intros p [A B] y [<-|J]; auto.
Qed.

(** The type itself: either the (JSON) shape has been made, or the name of a
    type is returned. *)
Lemma shape_type_step (U : addr -> Prop) a name loc t fs p r p' : U a -> fine U p ->
  shape_type E inc_dt rec a name loc t fs p = (Ok r, p') ->
  fine U p' /\ fwd U p p' /\ (r = None -> known (H_ p') a).
Proof.
  intros Ua F H. unfold shape_type in H.
  assert (Plain : forall x, dlift x p = (Ok r, p') -> (forall o, x = Ok o -> o <> None) -> fine U p' /\ fwd U p p' /\ (r = None -> known (H_ p') a)).
  { intros x H0 N. injection H0 as Q <-. split; auto. split; [apply fwd_refl|]. intros ->. now destruct (N None Q). }
  assert (Some' : forall x, dret (Some x) p = (Ok r, p') -> fine U p' /\ fwd U p p' /\ (r = None -> known (H_ p') a)).
  { intros x H0. apply (Plain (Ok (Some x))); auto. intros o Q. injection Q as <-. discriminate. }
  destruct (y_kind t); try discriminate.
  - apply dbind_ok in H. destruct H as (l & p1 & H1 & H). destruct (keep_parents U name loc (y_content t) _ _ _ F I H1) as (F1 & W1 & L).
    apply dbind_ok in H. destruct H as (sl & p2 & H2 & H). apply dbind_ok in H. destruct H as (u & p3 & H3 & H). injection H as <- <-.
    assert (Q : (sl <- hp (alloc (CSlice l)) ;; hp (upd_base a (set_inherits sl)) ;;; dret sl)%D p1 = (Ok sl, p3)).
    { unfold dbind. rewrite H2. rewrite H3. reflexivity. }
    destruct (keep_inherits U a l _ _ _ F1 L Q) as (F2 & W2 & _). split; auto. split; [eapply fwd_trans; eauto|discriminate].
  - destruct (String.eqb (y_tag t) "!!str").
    + destruct (y_value t) as [|c w] eqn:V.
      * apply dbind_ok in H. destruct H as (ty & p1 & H1 & H). injection H1 as _ <-. exact (Some' _ H).
      * destruct (Ascii.eqb c "{"%char); [|exact (Some' _ H)].
        apply dbind_ok in H. destruct H as (u & p1 & H1 & H). destruct (d_schema E (String c w)); [|discriminate].
        destruct (keep_type U a "json" (fun _ => True) eq_refl _ _ _ F I H1) as (F1 & W1 & b & G & T).
        apply dbind_ok in H. destruct H as (u2 & p2 & H2 & H). injection H as <- <-. apply hp_ok in H2. destruct H2 as (s2 & H2 & ->).
        apply upd_base_ok in H2. destruct H2 as (b' & G' & Wr). fold (H_ p1) in G'. rewrite G in G'. injection G' as <-.
        destruct (step_shape U U p1 a b (SJSON (String c w)) s2 F1 G) as (F2 & W2 & K2); auto; try discriminate.
        -- now rewrite T.
        -- exact I.
        -- split; auto. split; [eapply fwd_trans; eauto|auto].
    + destruct (String.eqb (y_tag t) "!include").
      * apply dbind_ok in H. destruct H as (d & p1 & H1 & H). destruct (Idt U _ _ _ _ F I H1) as (F1 & W1 & Hd).
        apply dbind_ok in H. destruct H as (u & p2 & H2 & H). injection H as <- <-.
        destruct (keep_link U a d _ _ _ F1 Hd H2) as (F2 & W2 & _). split; auto. split; [eapply fwd_trans; eauto|discriminate].
      * destruct (String.eqb (y_tag t) "!!null"); [exact (Some' _ H)|discriminate].
Qed.

(** A new type. *)
Definition plus (U : addr -> Prop) (a x : addr) : Prop := U x \/ x = a.

Lemma step_make U p nm loc a p' : fine U p -> hp (make_base nm loc) p = (Ok a, p') ->
  ~ U a /\ fine (plus U a) p' /\ fwd U p p' /\ List.length (H_ p) <= a.
Proof.
  intros F H. apply hp_ok in H. destruct H as (s' & H & ->). destruct (make_base_good _ _ _ _ _ _ H (f_heap _ _ F)) as (G & M & Ha & L).
  assert (N : ~ U a). { intros Ua. pose proof (has_lt _ _ _ (f_under _ _ F a Ua)). unfold H_ in *. lia. }
  split; auto. destruct (fine_st U (plus U a) p s' F) as [F' W']; auto.
  - eapply good_weak; [|exact G]. cbn. unfold plus. intros x [->|[X|X]]; auto.
  - unfold plus. intros x [X| ->]; auto. apply (m_sort _ _ _ (M U)). now apply (f_under _ _ F).
Qed.

Lemma fwd_plus U a p p1 p' : fwd U p p1 -> fwd (plus U a) p1 p' -> List.length (H_ p) <= a -> fwd U p p'.
Proof.
  intros [[A B] C] [[A' B'] C'] L. split; [split|].
  - auto.
  - intros x Nx K. apply B'; [|now apply B]. intros [X| ->]; [auto|]. apply known_has, has_lt in K. unfold H_ in L. lia.
  - destruct C as [l C]. destruct C' as [l' C']. exists (l ++ l'). now rewrite C', C, app_assoc.
Qed.

Lemma fine_todo U p a : fine (plus U a) p -> ~ U a ->
  fine U (PSt (p_st p) (p_libs p) (p_frags p) (p_dts p) (p_exts p) (p_types p) (p_annots p) (p_todo p ++ [a]) (p_facets p)).
Proof.
  intros [A B C D F G] N. split; cbn; auto.
  - eapply good_weak; [|exact A]. cbn. intros x [[X| ->]|X]; auto; right; apply in_or_app; cbn; auto.
  - intros x X. apply B. now left.
  - intros x X. apply in_app_or in X. destruct X as [X|[<-|[]]]; [now apply C|]. apply B. now right.
Qed.

Lemma keep_new_shape U v name loc : keep U (new_shape E inc_dt inc_ne rec v name loc) (fun _ => True) (fun x p => isb p x).
Proof.
  intros p x p' F _ H. unfold new_shape in H. apply dbind_ok in H. destruct H as (a & p1 & H1 & H).
  destruct (step_make _ _ _ _ _ _ F H1) as (N & F1 & W1 & L).
  set (V := plus U a) in *. assert (Va : V a) by (right; reflexivity).
  assert (Done : forall q, fine V q -> fwd V p1 q -> known (H_ q) a -> fine U q /\ fwd U p q /\ isb q a).
  { intros q Fq Wq Kq. split; [|split; [exact (fwd_plus _ _ _ _ _ W1 Wq L)|exact (f_under _ _ Fq a Va)]].
    apply (fine_done V U q a); auto; unfold V, plus; tauto. }
  apply dbind_ok in H. destruct H as (tf & p2 & H2 & H). destruct (keep_decode V a loc v _ _ _ F1 I H2) as (F2 & W2 & _).
  apply dbind_ok in H. destruct H as (ty & p3 & H3 & H).
  assert (T : fine V p3 /\ fwd V p1 p3 /\ (ty = None -> known (H_ p3) a)).
  { destruct (fst tf) as [t|].
    - destruct (shape_type_step V a name loc t (snd tf) _ _ _ Va F2 H3) as (F3 & W3 & K3). split; auto. split; [eapply fwd_trans; eauto|auto].
    - apply dbind_ok in H3. destruct H3 as (ty' & p3' & H3 & H3'). injection H3 as _ <-. injection H3' as <- <-. split; auto. split; auto. discriminate. }
  clear H3. destruct T as (F3 & W3 & K3). destruct ty as [ty|].
  - apply dbind_ok in H. destruct H as (u & p4 & H4 & H). apply dbind_ok in H. destruct H as (b & p5 & H5 & H).
    apply hp_ok in H5. destruct H5 as (s5 & H5 & ->). apply rd_ok in H5. destruct H5 as [-> G].
    assert (X : with_st p4 (p_st p4) = p4) by (destruct p4; reflexivity). rewrite X in H. clear X. fold (H_ p4) in G.
    destruct (builtin ty) eqn:B.
    + destruct (concrete_known V a loc ty (snd tf) _ _ _ B F3 H4) as (F4 & W4 & K4).
      destruct (known_not_hollow _ _ _ K4 G) as (sh & S & Ns). rewrite S in H.
      assert (Hr : dret a p4 = (Ok x, p')) by (destruct sh; solve [exact H|now destruct Ns]). injection Hr as <- <-.
      apply Done; auto; [|eapply fwd_trans; eauto]. apply (minus_back V a); auto. intros y Vy. eapply isb_fwd; [exact W4|]. now apply (f_under _ _ F3).
    + destruct (concrete_open V a loc ty (snd tf) _ _ _ B Va F3 H4) as (F4 & W4 & b4 & G4 & S4). rewrite G in G4. injection G4 as <-. rewrite S4 in H.
      apply dbind_ok in H. destruct H as (u6 & p6 & H6 & H). injection H as <- <-. unfold put_todo in H6. injection H6 as _ <-.
      pose proof (fine_todo U p4 a F4 N) as F6. split; [exact F6|]. split.
      * pose proof (fwd_plus U a _ _ _ W1 (fwd_trans _ _ _ _ W3 W4) L) as [A [l C]]. split; [exact A|]. cbn. exists (l ++ [a]). now rewrite C, app_assoc.
      * exact (f_under _ _ F4 a Va).
  - injection H as <- <-. apply Done; auto.
Qed.
End Rec.

Lemma keep_shape_at n : forall U v name loc, keep U (shape_at E inc_dt inc_ne n v name loc) (fun _ => True) (fun x p => isb p x).
Proof.
  induction n as [|n IH]; intros; cbn [shape_at]; [apply keep_err; discriminate|]. apply keep_new_shape. exact IH.
Qed.

Lemma keep_shape_yaml U v name loc : keep U (shape_yaml E inc_dt inc_ne v name loc) (fun _ => True) (fun x p => isb p x).
Proof. apply keep_shape_at. Qed.

Lemma concrete_yaml_known U a t fs p u p' : builtin t = true -> fine U p -> concrete_yaml E inc_dt inc_ne a t fs p = (Ok u, p') ->
  fine (minus U a) p' /\ fwd U p p' /\ known (H_ p') a.
Proof.
  intros B F H. unfold concrete_yaml in H. apply dbind_ok in H. destruct H as (b & p1 & H1 & H).
  destruct (keep_rd U get_base a (fun _ => True) _ _ _ F I H1) as (F1 & W1 & _).
  destruct (concrete_known (fun v => shape_yaml E inc_dt inc_ne v) keep_shape_yaml U a (b_loc b) t fs _ _ _ B F1 H) as (F2 & W2 & K2).
  split; auto. split; auto. eapply fwd_trans; eauto.
Qed.
End Shape.

(** * Fragments *)

Definition all_isb (p : pst) (m : omap addr) : Prop := forall k a, In (k, a) m -> isb p a.
Lemma firm_isbs U m : firm U (fun p => all_isb p m).
Proof. intros p p' W H k a I. eapply isb_fwd; eauto. Qed.

Lemma in_oset {A} k (d : A) m k' v : In (k', v) (oset k d m) -> v = d \/ In (k', v) m.
Proof.
  induction m as [|[k0 v0] m IH]; cbn.
  - intros [Q|[]]. injection Q as <- <-. auto.
  - destruct (String.eqb k k0); cbn; intros [Q|Q]; auto.
    + injection Q as <- <-. auto.
    + destruct (IH Q); auto.
Qed.

Lemma all_oset p m k a : all_isb p m -> isb p a -> all_isb p (oset k a m).
Proof. intros H B k' a' I. apply in_oset in I. destruct I as [->|I]; eauto. Qed.

Section Fragment.
Variable E : denv.
Variable inc_dt : string -> D addr.
Variable inc_ne : string -> D unit.
Variable inc_lib : string -> D nat.
Hypothesis Idt : forall U x, keep U (inc_dt x) (fun _ => True) (fun d p => has (H_ p) d TDT).
Hypothesis Ine : forall U x, keep U (inc_ne x) (fun _ => True) any_.
Hypothesis Ilib : forall U x, keep U (inc_lib x) (fun _ => True) any_.

Lemma keep_declarations U loc put l : (forall k loc a, quiet (put k loc a)) ->
  forall m, keep U (declarations E inc_dt inc_ne loc put l m) (fun p => all_isb p m) (fun m' p => all_isb p m').
Proof.
  intros Q. cut (forall n l, List.length l <= n -> forall m, keep U (declarations E inc_dt inc_ne loc put l m) (fun p => all_isb p m) (fun m' p => all_isb p m')); [intros X; exact (X _ l (le_n _))|].
  clear l. induction n as [|n IH]; intros [|k [|v l]] L m; cbn in L; try lia; cbn [declarations];
    try (apply keep_ret; intros; assumption); try (apply keep_err; discriminate).
  apply (keep_bind U _ _ _ (fun x p => isb p x)); [apply firm_isbs| |].
  - apply (keep_sub U _ (fun _ => True)); [auto|]. apply keep_shape_yaml; auto.
  - intros x. apply (keep_bind U _ _ _ any_); [apply firm_and; [apply firm_isbs|apply firm_isb]|apply keep_quiet, Q|]. intros u.
    apply (keep_sub U _ (fun p => all_isb p (oset (y_value k) x m))); [|apply IH; lia]. intros p [[A B] _]. now apply all_oset.
Qed.

Lemma keep_declare U loc put v old : (forall k loc a, quiet (put k loc a)) ->
  keep U (declare E inc_dt inc_ne loc put v old) (fun p => all_isb p old) (fun m' p => all_isb p m').
Proof.
  intros Q. unfold declare. destruct (String.eqb _ _); [apply keep_ret; auto|]. destruct (y_kind v); try (apply keep_err; discriminate).
  apply (keep_sub U _ (fun p => all_isb p [])); [intros p _ k a []|]. now apply keep_declarations.
Qed.

Definition lib_in (b : plib) (p : pst) : Prop := all_isb p (pl_types b) /\ all_isb p (pl_annots b).
Lemma firm_lib U b : firm U (lib_in b). Proof. apply firm_and; apply firm_isbs. Qed.

Lemma keep_lib_entries U loc l : forall b, keep U (lib_entries E inc_dt inc_ne loc l b) (lib_in b) lib_in.
Proof.
  cut (forall n l, List.length l <= n -> forall b, keep U (lib_entries E inc_dt inc_ne loc l b) (lib_in b) lib_in); [intros X; exact (X _ l (le_n _))|].
  clear l. induction n as [|n IH]; intros [|k [|v l]] L b; cbn in L; try lia; cbn [lib_entries];
    try (apply keep_ret; intros; assumption); try (apply keep_err; discriminate).
  destruct (String.eqb (y_value k) "uses").
  { apply (keep_bind U _ _ _ any_); [apply firm_lib|apply keep_lift; intros; exact I|]. intros m.
    apply (keep_sub U _ (lib_in (PLib m (pl_types b) (pl_annots b)))); [|apply IH; lia]. intros p [X _]. exact X. }
  destruct (String.eqb (y_value k) "types").
  { apply (keep_bind U _ _ _ (fun m p => all_isb p m)); [apply firm_lib| |].
    - apply (keep_sub U _ (fun p => all_isb p (pl_types b))); [intros p [X _]; exact X|]. apply keep_declare. intros; apply quiet_type.
    - intros m. apply (keep_sub U _ (lib_in (PLib (pl_uses b) m (pl_annots b)))); [|apply IH; lia]. intros p [[_ X] Y]. split; auto. }
  destruct (String.eqb (y_value k) "annotationTypes").
  { apply (keep_bind U _ _ _ (fun m p => all_isb p m)); [apply firm_lib| |].
    - apply (keep_sub U _ (fun p => all_isb p (pl_annots b))); [intros p [_ X]; exact X|]. apply keep_declare. intros; apply quiet_annot.
    - intros m. apply (keep_sub U _ (lib_in (PLib (pl_uses b) (pl_types b) m))); [|apply IH; lia]. intros p [[X _] Y]. split; auto. }
  assert (Go : forall A (m : D A), quiet m -> keep U (dbind m (fun _ => lib_entries E inc_dt inc_ne loc l b)) (lib_in b) lib_in).
  { intros A m Q. apply (keep_bind U _ _ _ any_); [apply firm_lib|apply keep_quiet, Q|]. intros u.
    apply (keep_sub U _ (lib_in b)); [|apply IH; lia]. intros p [X _]. exact X. }
  destruct (String.eqb (y_value k) "usage"); [apply Go, quiet_lift|].
  destruct (is_annotation (y_value k)); [apply Go, quiet_make_ext|apply IH; lia].
Qed.

Lemma keep_unmarshal_lib U loc v : keep U (unmarshal_lib E inc_dt inc_ne loc v) (fun _ => True) lib_in.
Proof.
  unfold unmarshal_lib. destruct (y_kind v); try (apply keep_err; discriminate).
  apply (keep_sub U _ (lib_in (PLib [] [] []))); [|apply keep_lib_entries]. intros p _. split; intros k a [].
Qed.

Lemma keep_new_lib U T A u : keep U (new_lib (Lib T A u)) (fun p => all_isb p T /\ all_isb p A) any_.
Proof.
  intros p l p' F [HT HA] H. unfold new_lib in H. injection H as _ <-. destruct F as [A0 B C D0 G I0]. split; [|split; [|exact I]].
  - split; cbn; auto. intros lib k a J K. apply in_app_or in J. destruct J as [J|[<-|[]]]; [eapply I0; eauto|]. cbn in K. destruct K as [K|K]; [eapply HT|eapply HA]; eauto.
  - split; cbn; [apply moves_refl|]. exists []. now rewrite app_nil_r.
Qed.

Definition frag_in (f : fragment) (p : pst) : Prop := match f with FDT _ o => exists y, o = Some y /\ isb p y | _ => True end.

Lemma keep_put_fragment U path f dt :
  keep U (put_fragment path f dt) (fun p => frag_in f p /\ forall d, dt = Some d -> has (H_ p) d TDT) any_.
Proof.
  intros p u p' F [Hf Hd] H. unfold put_fragment in H. destruct (oget path (p_frags p)).
  - injection H as _ <-. split; auto. split; [apply fwd_refl|exact I].
  - injection H as _ <-. destruct F as [A0 B C D0 G I0]. split; [|split; [|exact I]].
    + split; cbn; auto.
      * intros q x J. destruct dt as [d|]; [|eapply D0; eauto]. apply in_app_or in J. destruct J as [J|[J|[]]]; [eapply D0; eauto|].
        injection J as _ <-. exact (Hd d eq_refl).
      * intros q u0 o J. apply in_app_or in J. destruct J as [J|[J|[]]]; [eapply G; eauto|]. injection J as _ ->. exact Hf.
    + split; cbn; [apply moves_refl|]. exists []. now rewrite app_nil_r.
Qed.

Lemma in_upd {A} n (x : A) l y : In y (upd n x l) -> y = x \/ In y l.
Proof. revert n. induction l as [|z l IH]; intros [|n]; cbn; auto; intros [->|H]; auto. destruct (IH _ H); auto. Qed.

Lemma keep_link_lib U l name x : keep U (link_lib l name x) (fun _ => True) any_.
Proof.
  intros p u p' F _ H. unfold link_lib in H. destruct (nth_error (p_libs p) l) as [lib|] eqn:N; [|discriminate]. injection H as _ <-.
  destruct F as [A0 B C D0 G I0]. split; [|split; [|exact I]].
  - split; cbn; auto. intros lib' k a J K. apply in_upd in J. destruct J as [->|J]; [|eapply I0; eauto]. cbn in K. apply nth_error_In in N. eapply I0; eauto.
  - split; cbn; [apply moves_refl|]. exists []. now rewrite app_nil_r.
Qed.

Lemma keep_link_dt U path mine name x : keep U (link_dt path mine name x) (fun _ => True) any_.
Proof.
  intros p u p' F _ H. unfold link_dt in H.
  assert (Nop : (Ok tt, p) = (Ok u, p') -> fine U p' /\ fwd U p p' /\ any_ u p').
  { intros Q. injection Q as _ <-. split; auto. split; [apply fwd_refl|exact I]. }
  destruct mine; [|auto]. destruct (oget path (p_frags p)) as [[l|uses sh|]|] eqn:O; auto. injection H as _ <-.
  apply Pipeline_proofs.oget_In in O. destruct F as [A0 B C D0 G I0]. split; [|split; [|exact I]].
  - split; cbn; auto. intros q u0 o J. apply in_oset in J. destruct J as [J|J]; [|eapply G; eauto]. injection J as _ ->. eapply G; eauto.
  - split; cbn; [apply moves_refl|]. exists []. now rewrite app_nil_r.
Qed.

Lemma link_uses_good U loc l m : forall p p', fine U p -> link_uses E inc_lib loc l m p = (Ok true, p') -> fine U p' /\ fwd U p p'.
Proof.
  induction m as [|[name value] m IH]; intros p p' F H; cbn [link_uses] in H.
  - injection H as <-. split; auto. apply fwd_refl.
  - apply dbind_ok in H. destruct H as (r & p1 & H1 & H). apply dbind_ok in H. destruct H as (u & p2 & H2 & H).
    apply dbind_ok in H. destruct H as (ok & p3 & H3 & H). injection H as Q <-. destruct r as [r|]; [subst ok|discriminate].
    unfold dtry in H1. destruct (inc_lib (e_join (d_y E) loc value) p) as [[x| | |] q] eqn:Q; try discriminate. injection H1 as -> ->.
    destruct (Ilib U _ _ _ _ F I Q) as (F1 & W1 & _). destruct (keep_link_lib U l name (Some r) _ _ _ F1 I H2) as (F2 & W2 & _).
    destruct (IH _ _ F2 H3) as (F3 & W3). split; auto. eapply fwd_trans; [exact W1|]. eapply fwd_trans; eauto.
Qed.

Lemma keep_decode_lib U text path : keep U (decode_lib E inc_dt inc_ne inc_lib text path) (fun _ => True) any_.
Proof.
  intros p l p' F _ H. unfold decode_lib in H. apply dbind_ok in H. destruct H as (o & p1 & H1 & H). injection H1 as _ <-.
  destruct o as [v|]; [|discriminate]. apply dbind_ok in H. destruct H as (b & p1 & H1 & H).
  destruct (keep_unmarshal_lib U path v _ _ _ F I H1) as (F1 & W1 & L1). apply dbind_ok in H. destruct H as (l' & p2 & H2 & H).
  destruct (keep_new_lib U _ _ _ _ _ _ F1 L1 H2) as (F2 & W2 & _). apply dbind_ok in H. destruct H as (u & p3 & H3 & H).
  assert (Pr : frag_in (FLib l') p2 /\ forall d, (None : option addr) = Some d -> has (H_ p2) d TDT) by (split; [exact I|discriminate]).
  destruct (keep_put_fragment U path (FLib l') None _ _ _ F2 Pr H3) as (F3 & W3 & _). apply dbind_ok in H. destruct H as (ok & p4 & H4 & H).
  destruct ok; [|discriminate]. injection H as <- <-. destruct (link_uses_good U path _ _ _ _ F3 H4) as (F4 & W4).
  split; auto. split; [|exact I]. eapply fwd_trans; [exact W1|]. eapply fwd_trans; [exact W2|]. eapply fwd_trans; eauto.
Qed.

Lemma keep_unmarshal_dt U loc v : keep U (unmarshal_dt E inc_dt inc_ne loc v) (fun _ => True) (fun r p => isb p (snd r)).
Proof.
  unfold unmarshal_dt. destruct (y_kind v); try (apply keep_err; discriminate).
  apply (keep_bind U _ _ _ any_); [apply firm_true|apply keep_lift_any|]. intros r.
  apply (keep_sub U _ (fun _ => True)); [auto|]. apply (keep_bind U _ _ _ (fun x p => isb p x)); [apply firm_true|apply keep_shape_yaml; auto|].
  intros x. apply keep_ret. intros p [_ X]. exact X.
Qed.

Lemma keep_link_dt_uses U loc mine m : keep U (link_dt_uses E inc_lib loc mine m) (fun _ => True) any_.
Proof.
  induction m as [|[name value] m IH]; cbn [link_dt_uses]; [apply keep_ret; intros; exact I|].
  apply keep_then; [apply Ilib|]. intros l. apply keep_then; [apply keep_link_dt|]. intros u. exact IH.
Qed.

Lemma keep_decode_dt U text path : keep U (decode_dt E inc_dt inc_ne inc_lib text path) (fun _ => True) (fun d p => has (H_ p) d TDT).
Proof.
  intros p d p' F _ H. unfold decode_dt in H. apply dbind_ok in H. destruct H as (o & p1 & H1 & H).
  assert (X : p1 = p) by (destruct (has_suffix ".json" path); injection H1; congruence). subst p1. clear H1.
  destruct o as [v|]; [|discriminate]. apply dbind_ok in H. destruct H as (r & p1 & H1 & H).
  destruct (keep_unmarshal_dt U path v _ _ _ F I H1) as (F1 & W1 & L1). apply dbind_ok in H. destruct H as (q & p2 & H2 & H). injection H2 as <- <-.
  apply dbind_ok in H. destruct H as (a & p2 & H2 & H). apply hp_ok in H2. destruct H2 as (s2 & H2 & ->).
  assert (Cp : cell_ok (H_ p1) (CDT (Some (snd r)))) by (exists (snd r); auto).
  destruct (step_alloc U p1 (CDT (Some (snd r))) a s2 F1 ltac:(discriminate) Cp H2) as (F2 & W2 & N2 & _).
  apply dbind_ok in H. destruct H as (u & p3 & H3 & H). apply dbind_ok in H. destruct H as (u4 & p4 & H4 & H). injection H as <- <-.
  assert (Pr : frag_in (FDT (unlinked (fst r)) (Some (snd r))) (with_st p1 s2) /\ forall d, Some a = Some d -> has (H_ (with_st p1 s2)) d TDT).
  { split; [|intros d Q; injection Q as <-; exact N2]. exists (snd r). split; auto. eapply isb_fwd; eauto. }
  destruct (keep_put_fragment U path _ (Some a) _ _ _ F2 Pr H3) as (F3 & W3 & _).
  destruct (keep_link_dt_uses U path _ _ _ _ _ F3 I H4) as (F4 & W4 & _).
  split; auto. split; [eapply fwd_trans; [exact W1|]; eapply fwd_trans; [exact W2|]; eapply fwd_trans; eauto|].
  eapply has_fwd; [exact W4|]. eapply has_fwd; [exact W3|]. exact N2.
Qed.

Lemma keep_decode_ne U text path : keep U (decode_ne E text path) (fun _ => True) any_.
Proof.
  unfold decode_ne. apply keep_then; [apply keep_lift_any|].
  assert (P : keep U (put_fragment path FNE None) (fun _ => True) any_).
  { apply (keep_sub U _ _ _ _) with (2 := keep_put_fragment U path FNE None). intros p _. split; [exact I|discriminate]. }
  intros [v|]; [|exact P]. destruct (y_kind v); try (apply keep_err; discriminate).
  apply keep_then; [apply keep_quiet, quiet_example_map|]. intros _. exact P.
Qed.
End Fragment.

Section Files.
Variable E : denv.

Lemma keep_parse_ne U path : keep U (parse_ne E path) (fun _ => True) any_.
Proof.
  intros p u p' F _ H. unfold parse_ne, dbind at 1, dget in H. destruct (oget path (p_frags p)) as [[l|us sh|]|]; try discriminate.
  - injection H as _ <-. split; auto. split; [apply fwd_refl|exact I].
  - revert p u p' F H. assert (K : keep U (dbind (dlift (open_fragment E path KNamedExample)) (fun text => decode_ne E text path)) (fun _ => True) any_).
    { apply keep_then; [apply keep_lift_any|]. intros; apply keep_decode_ne. }
    intros p u p' F H. exact (K p u p' F I H).
Qed.

Lemma keep_files n : (forall U path, keep U (parse_dt E n path) (fun _ => True) (fun d p => has (H_ p) d TDT))
  /\ forall U path, keep U (parse_lib E n path) (fun _ => True) any_.
Proof.
  induction n as [|n [IHd IHl]]; [split; intros U path; apply keep_err; discriminate|]. split; intros U path p x p' F _ H.
  - rewrite parse_dt_eq in H. destruct (oget path (p_frags p)) as [[l|us sh|]|]; try discriminate.
    + destruct (oget path (p_dts p)) as [a|] eqn:O; [|discriminate]. injection H as <- <-. apply Pipeline_proofs.oget_In in O.
      split; auto. split; [apply fwd_refl|]. eapply f_dts; eauto.
    + apply dbind_ok in H. destruct H as (text & p1 & H1 & H). injection H1 as _ <-.
      exact (keep_decode_dt E _ _ _ IHd keep_parse_ne IHl U text path _ _ _ F I H).
  - rewrite parse_lib_eq in H. destruct (oget path (p_frags p)) as [[l|us sh|]|]; try discriminate.
    + injection H as <- <-. split; auto. split; [apply fwd_refl|exact I].
    + apply dbind_ok in H. destruct H as (text & p1 & H1 & H). injection H1 as _ <-.
      exact (keep_decode_lib E _ _ _ IHd keep_parse_ne IHl U text path _ _ _ F I H).
Qed.
End Files.

(** * Resolution *)

(** [m] settles [a]. *)
Definition settles {A} (U : addr -> Prop) (a : addr) (m : D A) : Prop := forall p u p', fine U p -> m p = (Ok u, p') ->
  fine (minus U a) p' /\ fwd U p p' /\ known (H_ p') a.

Lemma fwd_under U p p' : fine U p -> fwd U p p' -> forall x, U x -> isb p' x.
Proof. intros F W x Ux. eapply isb_fwd; [exact W|]. now apply (f_under _ _ F). Qed.

Lemma settles_fine U {A} a (m : D A) p u p' : settles U a m -> fine U p -> m p = (Ok u, p') -> fine U p' /\ fwd U p p' /\ known (H_ p') a.
Proof. intros S F H. destruct (S _ _ _ F H) as (F' & W & K). split; [|auto]. apply (minus_back U a); auto. exact (fwd_under _ _ _ F W). Qed.

Lemma known_builtin U p a b : fine U p -> known (H_ p) a -> get_base (H_ p) a = Some b -> builtin (b_type b) = true.
Proof. intros F K G. destruct (known_not_hollow _ _ _ K G) as (sh & S & N). exact (k_kind _ _ (base_ok_at _ _ _ _ F G) _ S N). Qed.

Lemma rd_step {A} (get : list cell -> addr -> option A) a p x p' : hp (rd get a) p = (Ok x, p') -> p' = p /\ get (H_ p) a = Some x.
Proof.
  intros H. apply hp_ok in H. destruct H as (s' & H & ->). apply rd_ok in H. destruct H as [-> G]. split; auto. destruct p; reflexivity.
Qed.

Lemma ref_type_isb U p name loc r : fine U p -> ref_type p name loc = Ok r -> isb p r.
Proof.
  intros F H. unfold ref_type in H. destruct (oget loc (p_frags p)) as [[l|uses sh|]|]; try discriminate.
  - destruct (nth_error (p_libs p) l) as [lib|] eqn:N; [|discriminate]. apply nth_error_In in N. unfold lib_ref_type, lib_reference in H.
    destruct (cut_reference name) as [[before after] found].
    assert (Here : forall lib k a, In lib (p_libs p) -> oget k (l_types lib) = Some a -> isb p a).
    { intros lib0 k a J O. apply Pipeline_proofs.oget_In in O. eapply (f_libs _ _ F); eauto. }
    destruct (negb found).
    + destruct (oget name (l_types lib)) as [a|] eqn:O; [|discriminate]. injection H as <-. eapply Here; eauto.
    + destruct (oget name (l_types lib)) as [a|] eqn:O; [injection H as <-; eapply Here; eauto|].
      destruct (oget before (l_uses lib)) as [[la|]|]; try discriminate. destruct (nth_error (p_libs p) la) as [lib2|] eqn:N2; [|discriminate].
      apply nth_error_In in N2. destruct (oget after (l_types lib2)) as [a|] eqn:O2; [|discriminate]. injection H as <-. eapply Here; eauto.
  - unfold dt_reference in H. destruct (cut_reference name) as [[before after] found]. destruct (negb found); [discriminate|].
    destruct (oget before uses) as [[la|]|]; try discriminate. destruct (nth_error (p_libs p) la) as [lib2|] eqn:N2; [|discriminate].
    apply nth_error_In in N2. destruct (oget after (l_types lib2)) as [a|] eqn:O2; [|discriminate]. injection H as <-.
    apply Pipeline_proofs.oget_In in O2. eapply (f_libs _ _ F); eauto.
Qed.

(** Appending a parent. *)
Lemma keep_parent U a r : keep U (hp (b' <- rd get_base a ;; l <- rd get_slice (b_inherits b') ;; Heap.write (b_inherits b') (CSlice (l ++ [r])))%M) (fun p => isb p r) any_.
Proof.
  intros p u p' F Hr H. apply hp_ok in H. destruct H as (s' & H & ->).
  apply bind_inv in H. destruct H as (b & s1 & R & H). apply rd_ok in R. destruct R as [-> G].
  apply bind_inv in H. destruct H as (l & s1 & R & H). apply rd_ok in R. destruct R as [-> Gl]. apply get_slice_nth in Gl.
  destruct (step_box U p (b_inherits b) (CSlice l) (CSlice (l ++ [r])) s' F Gl) as [F' W']; auto; try discriminate.
  - cbn. intros y J. apply in_app_or in J. destruct J as [J|[<-|[]]]; [|exact Hr]. exact (g_cells _ _ (f_heap _ _ F) _ _ Gl y J).
  - unfold write in *. injection H as _ <-. reflexivity.
  - split; auto. split; auto. exact I.
Qed.

(** The members of a union. *)
Lemma keep_members U a l : keep U (sl <- hp (alloc (CSlice l)) ;; hp (set_members a sl))%D (fun p => (forall y, In y l -> isb p y) /\ known (H_ p) a) any_.
Proof.
  intros p u p' F [Hl Kn] H. apply dbind_ok in H. destruct H as (x & p1 & H1 & H). apply hp_ok in H1. destruct H1 as (s1 & H1 & ->).
  apply hp_ok in H. destruct H as (s2 & H & ->). unfold set_members in H.
  apply upd_base_ok in H. destruct H as (b & G & Wr). cbn in G.
  assert (Cp : cell_ok (H_ p) (CSlice l)) by exact Hl.
  destruct (step_alloc U p (CSlice l) x s1 F ltac:(discriminate) Cp H1) as (F1 & W1 & N1 & B1).
  assert (Same : forall sh, b_shape b = Some sh -> write a (CBase b) (p_st (with_st p s1)) = (Ok tt, s2) -> fine U (with_st (with_st p s1) s2) /\ fwd U p (with_st (with_st p s1) s2) /\ any_ u (with_st (with_st p s1) s2)).
  { intros sh _ W. pose proof (base_ok_at _ _ _ _ F1 G) as K. destruct (step_base U U (with_st p s1) a b b s2 F1 G) as [F2 W2]; auto.
    - intros Ho. apply (g_hollow _ _ (f_heap _ _ F1) _ _ G). exact Ho.
    - split; [exact F2|]. split; [eapply fwd_trans; eauto|exact I]. }
  destruct (B1 _ _ G) as [G0 _]. destruct (known_not_hollow _ _ _ Kn G0) as (sh & S & N). pose proof (known_builtin _ _ _ _ F Kn G0) as Bt.
  rewrite S in Wr. destruct sh; try (exact (Same _ S Wr)).
  match type of Wr with context [SUnion x ?e] => destruct (step_shape U U (with_st p s1) a b (SUnion x e) s2 F1 G Bt) as (F2 & W2 & _); auto; try discriminate end.
  - intros c Bc. cbn in Bc. subst c. right. intros y by_ Gy. now apply B1 in Gy.
  - split; [exact F2|]. split; [eapply fwd_trans; eauto|exact I].
Qed.

Section Visit.
Variable E : denv.
Variable m0 : nat.
Notation conc := (concrete_yaml E (parse_dt E m0) (parse_ne E)).
Variable rec : addr -> D unit.
Hypothesis Rec : forall U a, settles U a (rec a).

Lemma conc_known U a t fs : builtin t = true -> settles U a (conc a t fs).
Proof. intros B p u p' F H. exact (concrete_yaml_known E _ _ (proj1 (keep_files E m0)) (keep_parse_ne E) U a t fs p u p' B F H). Qed.

Lemma conc_open (U : addr -> Prop) a t fs p u p' : builtin t = false -> U a -> fine U p -> conc a t fs p = (Ok u, p') -> fine U p' /\ fwd U p p'.
Proof.
  intros B Ua F H. unfold concrete_yaml in H. apply dbind_ok in H. destruct H as (b & p1 & H1 & H). apply rd_step in H1. destruct H1 as [-> _].
  destruct (concrete_open E _ U a (b_loc b) t fs p u p' B Ua F H) as (A & C & _). auto.
Qed.

(** A fresh type that is settled at once. *)
Lemma fresh_then U {A} name loc (f : addr -> D A) p x p' :
  (forall V a, settles V a (f a)) -> fine U p ->
  (a <- fresh_shape conc name "" loc ;; f a ;;; dret a)%D p = (Ok x, p') -> fine U p' /\ fwd U p p' /\ isb p' x.
Proof.
  intros Sf F H. apply dbind_ok in H. destruct H as (a & p1 & H1 & H). unfold fresh_shape in H1. apply dbind_ok in H1. destruct H1 as (a' & q & H0 & H1).
  destruct (step_make _ _ _ _ _ _ F H0) as (N & F0 & W0 & L). apply dbind_ok in H1. destruct H1 as (u1 & q1 & H1 & H2). injection H2 as -> <-.
  assert (Va : plus U a a) by (right; reflexivity).
  destruct (conc_open (plus U a) a "" None _ _ _ eq_refl Va F0 H1) as (F1 & W1).
  apply dbind_ok in H. destruct H as (u2 & q2 & H2 & H). injection H as <- <-.
  destruct (Sf (plus U a) a _ _ _ F1 H2) as (F2 & W2 & K2). split; [|split].
  - apply (fine_weak (minus (plus U a) a)); auto; unfold minus, plus; [tauto|]. intros y Uy. apply (fwd_under _ _ _ F1 W2). now left.
  - eapply fwd_plus; [exact W0|eapply fwd_trans; eauto|exact L].
  - now apply known_has.
Qed.

Lemma fresh_nil U name t loc p x p' : builtin t = true -> fine U p -> fresh_shape conc name t loc p = (Ok x, p') -> fine U p' /\ fwd U p p' /\ isb p' x.
Proof.
  intros B F H1. unfold fresh_shape in H1. apply dbind_ok in H1. destruct H1 as (a & q & H0 & H1).
  destruct (step_make _ _ _ _ _ _ F H0) as (N & F0 & W0 & L). apply dbind_ok in H1. destruct H1 as (u1 & q1 & H1 & H2). injection H2 as <- <-.
  destruct (conc_known (plus U a) a t None B _ _ _ F0 H1) as (F2 & W2 & K2). split; [|split].
  - apply (fine_weak (minus (plus U a) a)); auto; unfold minus, plus; [tauto|]. intros y Uy. apply (fwd_under _ _ _ F0 W2). now left.
  - eapply fwd_plus; [exact W0|exact W2|exact L].
  - now apply known_has.
Qed.

Lemma see_ref_settles U name a fs : settles U a (see_ref conc rec name a fs).
Proof.
  intros p u p' F H. unfold see_ref in H. apply dbind_ok in H. destruct H as (b & p1 & H1 & H). apply rd_step in H1. destruct H1 as [-> Gb].
  apply dbind_ok in H. destruct H as (q & p1 & H1 & H). injection H1 as <- <-. apply dbind_ok in H. destruct H as (r & p1 & H1 & H). injection H1 as R <-.
  pose proof (ref_type_isb _ _ _ _ _ F R) as Br. apply dbind_ok in H. destruct H as (rb & p1 & H1 & H). apply rd_step in H1. destruct H1 as [-> _].
  destruct (Z.eqb (b_id rb) (b_id b)); [discriminate|]. apply dbind_ok in H. destruct H as (u1 & p1 & H1 & H).
  destruct (settles_fine _ _ _ _ _ _ (Rec U r) F H1) as (F1 & W1 & K1). apply dbind_ok in H. destruct H as (rb' & p2 & H2 & H). apply rd_step in H2. destruct H2 as [-> Gr].
  pose proof (known_builtin _ _ _ _ F1 K1 Gr) as Bt. apply dbind_ok in H. destruct H as (u2 & p2 & H2 & H).
  destruct (conc_known U a _ fs Bt _ _ _ F1 H2) as (F2 & W2 & K2). assert (Na : ~ minus U a a) by (unfold minus; tauto).
  assert (Br2 : isb p2 r) by (eapply isb_fwd; [exact W2|]; eapply isb_fwd; eauto).
  assert (X : fine (minus U a) p' /\ fwd (minus U a) p2 p' /\ @any_ unit u p').
  { destruct fs; [exact (keep_parent (minus U a) a r _ _ _ F2 Br2 H)|exact (keep_alias (minus U a) a r _ _ _ F2 Br2 H)]. }
  destruct X as (F3 & W3 & _). split; auto. split; [|exact (known_fwd _ _ _ _ Na W3 K2)].
  eapply fwd_trans; [exact W1|]. eapply fwd_trans; [exact W2|]. exact (fwd_minus _ _ _ _ W3).
Qed.

Lemma prim_builtin t : builtin (prim_text t) = true.
Proof. destruct t; reflexivity. Qed.

(** The members of a union, one after another. *)
Lemma see_members U loc (see : typ -> addr -> option fnodes -> D unit) ts : (forall t, In t ts -> forall V a fs, settles V a (see t a fs)) ->
  forall p xs p', fine U p ->
  (fix members (l : list typ) : D (list addr) :=
               match l with
               | [] => dret []
               | t :: l' =>
                   (x <- fresh_shape conc "" "" loc ;;
                   see t x None ;;;
                   r <- members l' ;;
                   dret (x :: r))%D
               end) ts p = (Ok xs, p') -> fine U p' /\ fwd U p p' /\ forall y, In y xs -> isb p' y.
Proof.
  intros S. induction ts as [|t ts IH]; intros p xs p' F H.
  - injection H as <- <-. split; auto. split; [apply fwd_refl|intros y []].
  - apply dbind_ok in H. destruct H as (x & p1 & H1 & H). apply dbind_ok in H. destruct H as (u & p2 & H2 & H).
    assert (Q : (a <- fresh_shape conc "" "" loc ;; see t a None ;;; dret a)%D p = (Ok x, p2)) by (unfold dbind; rewrite H1; rewrite H2; reflexivity).
    destruct (fresh_then U "" loc _ _ _ _ (fun V a => S t (or_introl eq_refl) V a None) F Q) as (F2 & W2 & B2).
    apply dbind_ok in H. destruct H as (r & p3 & H3 & H). injection H as <- <-.
    destruct (IH (fun t' J => S t' (or_intror J)) _ _ _ F2 H3) as (F3 & W3 & B3). split; auto. split; [eapply fwd_trans; eauto|].
    intros y [<-|J]; [eapply isb_fwd; eauto|auto].
Qed.

Lemma see_union_eq t1 t2 ts a fs : see_expr conc rec (EUnion t1 t2 ts) a fs =
  (conc a "union" fs ;;;
      b <- hp (rd get_base a) ;;
      x1 <- fresh_shape conc "" "" (b_loc b) ;;
      see_typ conc rec t1 x1 None ;;;
      x2 <- fresh_shape conc "" "" (b_loc b) ;;
      see_typ conc rec t2 x2 None ;;;
      xs <- (fix members (l : list typ) : D (list addr) :=
               match l with
               | [] => dret []
               | t :: l' =>
                   x <- fresh_shape conc "" "" (b_loc b) ;;
                   see_typ conc rec t x None ;;;
                   r <- members l' ;;
                   dret (x :: r)
               end) ts ;;
      sl <- hp (alloc (CSlice (x1 :: x2 :: xs))) ;;
      hp (set_members a sl))%D.
Proof. reflexivity. Qed.
Lemma see_array_eq at_ a fs : see_typ conc rec (TArray at_) a fs =
  (conc a "array" fs ;;;
      b <- hp (rd get_base a) ;;
      i <- fresh_shape conc "" "" (b_loc b) ;;
      see_atom conc rec at_ i None ;;;
      hp (upd_arr a (set_items (Some i))))%D.
Proof. reflexivity. Qed.
Lemma see_optional_eq at_ a fs : see_typ conc rec (TOptional at_) a fs =
  (conc a "union" fs ;;;
      b <- hp (rd get_base a) ;;
      x <- fresh_shape conc "" "" (b_loc b) ;;
      see_atom conc rec at_ x None ;;;
      nl <- fresh_shape conc "" "nil" (b_loc b) ;;
      sl <- hp (alloc (CSlice [x; nl])) ;;
      hp (set_members a sl))%D.
Proof. reflexivity. Qed.

Lemma see_settles :
  (forall e U a fs, settles U a (see_expr conc rec e a fs))
  /\ (forall t U a fs, settles U a (see_typ conc rec t a fs))
  /\ (forall at_ U a fs, settles U a (see_atom conc rec at_ a fs)).
Proof.
  apply (Resolve_proofs.trees_all (fun e => forall U a fs, settles U a (see_expr conc rec e a fs))
    (fun t => forall U a fs, settles U a (see_typ conc rec t a fs)) (fun at_ => forall U a fs, settles U a (see_atom conc rec at_ a fs))).
  - intros t Q U a fs. exact (Q U a fs).
  - intros t1 t2 ts Q1 Q2 Qs U a fs p u p' F H. rewrite see_union_eq in H.
    apply dbind_ok in H. destruct H as (u1 & p1 & H1 & H). destruct (conc_known U a "union" fs eq_refl _ _ _ F H1) as (F1 & W1 & K1).
    set (V := minus U a) in *. assert (Na : ~ V a) by (unfold V, minus; tauto).
    apply dbind_ok in H. destruct H as (b & p2 & H2 & H). apply rd_step in H2. destruct H2 as [-> _].
    apply dbind_ok in H. destruct H as (x1 & p2 & H2 & H). apply dbind_ok in H. destruct H as (u2 & p3 & H3 & H).
    assert (X : (a <- fresh_shape conc "" "" (b_loc b) ;; see_typ conc rec t1 a None ;;; dret a)%D p1 = (Ok x1, p3)) by (unfold dbind; rewrite H2; rewrite H3; reflexivity).
    destruct (fresh_then V "" (b_loc b) _ _ _ _ (fun V a => Q1 V a None) F1 X) as (F3 & W3 & B3). clear X H2 H3.
    apply dbind_ok in H. destruct H as (x2 & p4 & H2 & H). apply dbind_ok in H. destruct H as (u4 & p5 & H3 & H).
    assert (X : (a <- fresh_shape conc "" "" (b_loc b) ;; see_typ conc rec t2 a None ;;; dret a)%D p3 = (Ok x2, p5)) by (unfold dbind; rewrite H2; rewrite H3; reflexivity).
    destruct (fresh_then V "" (b_loc b) _ _ _ _ (fun V a => Q2 V a None) F3 X) as (F5 & W5 & B5). clear X H2 H3.
    apply dbind_ok in H. destruct H as (xs & p6 & H6 & H).
    rewrite Forall_forall in Qs.
    destruct (see_members V (b_loc b) (see_typ conc rec) ts (fun t J => Qs t J) _ _ _ F5 H6) as (F6 & W6 & B6).
    assert (W16 : fwd V p1 p6) by (eapply fwd_trans; [exact W3|]; eapply fwd_trans; eauto).
    assert (Pr : (forall y, In y (x1 :: x2 :: xs) -> isb p6 y) /\ known (H_ p6) a).
    { split; [|exact (known_fwd _ _ _ _ Na W16 K1)]. intros y [<-|[<-|J]]; auto.
      - exact (isb_fwd _ _ _ _ W6 (isb_fwd _ _ _ _ W5 B3)).
      - exact (isb_fwd _ _ _ _ W6 B5). }
    destruct (keep_members V a _ _ _ _ F6 Pr H) as (F7 & W7 & _).
    split; auto. split; [|exact (known_fwd _ _ _ _ Na W7 (proj2 Pr))].
    eapply fwd_trans; [exact W1|]. apply (fwd_minus U a). eapply fwd_trans; eauto.
  - intros at_ Q U a fs. exact (Q U a fs).
  - intros at_ Q U a fs p u p' F H. rewrite see_array_eq in H.
    apply dbind_ok in H. destruct H as (u1 & p1 & H1 & H). destruct (conc_known U a "array" fs eq_refl _ _ _ F H1) as (F1 & W1 & K1).
    set (V := minus U a) in *. assert (Na : ~ V a) by (unfold V, minus; tauto).
    apply dbind_ok in H. destruct H as (b & p2 & H2 & H). apply rd_step in H2. destruct H2 as [-> _].
    apply dbind_ok in H. destruct H as (x1 & p2 & H2 & H). apply dbind_ok in H. destruct H as (u2 & p3 & H3 & H).
    assert (X : (a <- fresh_shape conc "" "" (b_loc b) ;; see_atom conc rec at_ a None ;;; dret a)%D p1 = (Ok x1, p3)) by (unfold dbind; rewrite H2; rewrite H3; reflexivity).
    destruct (fresh_then V "" (b_loc b) _ _ _ _ (fun V a => Q V a None) F1 X) as (F3 & W3 & B3).
    destruct (keep_items V a x1 _ _ _ F3 B3 H) as (F4 & W4 & _).
    assert (W14 : fwd V p1 p') by (eapply fwd_trans; eauto).
    split; auto. split; [|exact (known_fwd _ _ _ _ Na W14 K1)]. eapply fwd_trans; [exact W1|]. now apply (fwd_minus U a).
  - intros at_ Q U a fs p u p' F H. rewrite see_optional_eq in H.
    apply dbind_ok in H. destruct H as (u1 & p1 & H1 & H). destruct (conc_known U a "union" fs eq_refl _ _ _ F H1) as (F1 & W1 & K1).
    set (V := minus U a) in *. assert (Na : ~ V a) by (unfold V, minus; tauto).
    apply dbind_ok in H. destruct H as (b & p2 & H2 & H). apply rd_step in H2. destruct H2 as [-> _].
    apply dbind_ok in H. destruct H as (x1 & p2 & H2 & H). apply dbind_ok in H. destruct H as (u2 & p3 & H3 & H).
    assert (X : (a <- fresh_shape conc "" "" (b_loc b) ;; see_atom conc rec at_ a None ;;; dret a)%D p1 = (Ok x1, p3)) by (unfold dbind; rewrite H2; rewrite H3; reflexivity).
    destruct (fresh_then V "" (b_loc b) _ _ _ _ (fun V a => Q V a None) F1 X) as (F3 & W3 & B3).
    apply dbind_ok in H. destruct H as (nl & p4 & H4 & H). destruct (fresh_nil V "" "nil" (b_loc b) _ _ _ eq_refl F3 H4) as (F4 & W4 & B4).
    assert (W14 : fwd V p1 p4) by (eapply fwd_trans; eauto).
    assert (Pr : (forall y, In y [x1; nl] -> isb p4 y) /\ known (H_ p4) a).
    { split; [|exact (known_fwd _ _ _ _ Na W14 K1)]. intros y [<-|[<-|[]]]; auto. exact (isb_fwd _ _ _ _ W4 B3). }
    destruct (keep_members V a _ _ _ _ F4 Pr H) as (F7 & W7 & _).
    split; auto. split; [|exact (known_fwd _ _ _ _ Na W7 (proj2 Pr))].
    eapply fwd_trans; [exact W1|]. apply (fwd_minus U a). eapply fwd_trans; eauto.
  - intros t U a fs. apply conc_known, prim_builtin.
  - intros e Q U a fs. exact (Q U a fs).
  - intros s o U a fs. apply see_ref_settles.
Qed.

Lemma keep_settle_each U l : keep U (settle_each rec l) (fun _ => True) any_.
Proof.
  induction l as [|x l IH]; cbn [settle_each]; [apply keep_ret; intros; exact I|]. apply keep_then; [|intros; exact IH].
  intros p u p' F _ H. destruct (settles_fine _ _ _ _ _ _ (Rec U x) F H) as (A & B & _). split; auto. split; auto. exact I.
Qed.
End Visit.

Lemma settle_settles E m n : forall U a, settles U a (settle E m n a).
Proof.
  induction n as [|n IH]; intros U a p u p' F H; [discriminate|]. cbn [settle] in H.
  apply dbind_ok in H. destruct H as (b & p1 & H1 & H). apply rd_step in H1. destruct H1 as [-> Gb].
  apply dbind_ok in H. destruct H as (q & p1 & H1 & H). injection H1 as <- <-.
  destruct (b_shape b) as [sh|] eqn:S; [|discriminate].
  assert (Done : sh <> SUnknown -> dret tt p = (Ok u, p') -> fine (minus U a) p' /\ fwd U p p' /\ known (H_ p') a).
  { intros N Q. injection Q as _ <-. assert (K : known (H_ p) a). { exists b. split; auto. intros [X|X]; congruence. }
    split; [now apply minus_fine|]. split; [apply fwd_refl|exact K]. }
  destruct sh; try (apply Done; [discriminate|exact H]). clear Done.
  set (fs := facets_of a (p_facets p)) in *. clearbody fs.
  destruct (b_link b) as [l|].
  - apply dbind_ok in H. destruct H as (d & p1 & H1 & H). apply rd_step in H1. destruct H1 as [-> Gd]. destruct d as [ds|]; [|discriminate].
    apply dbind_ok in H. destruct H as (u1 & p1 & H1 & H). destruct (settles_fine _ _ _ _ _ _ (IH U ds) F H1) as (F1 & W1 & K1).
    apply dbind_ok in H. destruct H as (db & p2 & H2 & H). apply rd_step in H2. destruct H2 as [-> G2].
    destruct (conc_known E m U a _ fs (known_builtin _ _ _ _ F1 K1 G2) _ _ _ F1 H) as (F2 & W2 & K2).
    split; auto. split; auto. eapply fwd_trans; eauto.
  - destruct (String.eqb (b_type b) "composite").
    + apply dbind_ok in H. destruct H as (ps & p1 & H1 & H). apply rd_step in H1. destruct H1 as [-> Gp].
      apply dbind_ok in H. destruct H as (u1 & p1 & H1 & H). destruct ps as [|q ps]; [discriminate|].
      cbn [settle_each] in H1. apply dbind_ok in H1. destruct H1 as (u0 & p0 & H0 & H1).
      destruct (IH U q _ _ _ F H0) as (F0 & W0 & K0).
      destruct (keep_settle_each _ IH (minus U q) ps _ _ _ F0 I H1) as (F1 & W1 & _).
      assert (Nq : ~ minus U q q) by (unfold minus; tauto). pose proof (known_fwd _ _ _ _ Nq W1 K0) as K1.
      assert (Wq : fwd U p p1) by (eapply fwd_trans; [exact W0|]; now apply (fwd_minus U q)).
      pose proof (minus_back _ _ _ F1 (fwd_under _ _ _ F Wq)) as F1'.
      apply dbind_ok in H. destruct H as (qb & p2 & H2 & H). apply rd_step in H2. destruct H2 as [-> G2].
      destruct (conc_known E m U a _ fs (known_builtin _ _ _ _ F1 K1 G2) _ _ _ F1' H) as (F2 & W2 & K2).
      split; auto. split; auto. eapply fwd_trans; eauto.
    + destruct (read_type (b_type b)) as [e|]; [|discriminate].
      exact (proj1 (see_settles E m _ IH) e U a fs p u p' F H).
Qed.

Definition nobody : addr -> Prop := fun _ => False.

Lemma settle_all_bad E m n k : forall p p', settle_all E m n k false p <> (Ok true, p').
Proof.
  induction k as [|k IH]; intros p p' H; cbn [settle_all] in H; [discriminate|].
  apply dbind_ok in H. destruct H as (q & p1 & H1 & H). injection H1 as <- <-. destruct (p_todo p) as [|a l]; [discriminate|].
  apply dbind_ok in H. destruct H as (r & p1 & H1 & H). apply dbind_ok in H. destruct H as (u & p2 & H2 & H).
  destruct r; exact (IH _ _ H).
Qed.

Lemma settle_all_fine E m n k : forall p p', fine nobody p -> settle_all E m n k true p = (Ok true, p') -> fine nobody p' /\ p_todo p' = [].
Proof.
  induction k as [|k IH]; intros p p' F H; cbn [settle_all] in H; [discriminate|].
  apply dbind_ok in H. destruct H as (q & p1 & H1 & H). injection H1 as <- <-. destruct (p_todo p) as [|a l] eqn:T.
  - injection H as <-. auto.
  - apply dbind_ok in H. destruct H as (r & p1 & H1 & H). apply dbind_ok in H. destruct H as (u & p2 & H2 & H).
    destruct r as [r|]; [|now apply settle_all_bad in H].
    unfold dtry in H1. destruct (settle E m n a p) as [[x| | |] p3] eqn:Es; try discriminate. injection H1 as -> ->.
    destruct (settles_fine _ _ _ _ _ _ (settle_settles E m n nobody a) F Es) as (F1 & W1 & K1).
    destruct (w_todo _ _ _ W1) as [l' T']. rewrite T in T'. cbn in T'. unfold drop_todo in H2. injection H2 as _ <-.
    refine (IH _ p' _ H). destruct F1 as [A B C D0 G I0]. split; cbn; auto.
    + eapply good_done; [exact K1| |exact A]. cbn. rewrite T'. cbn. intros y [[]|[<-|J]]; auto.
    + intros y J. apply C. rewrite T' in *. now right.
Qed.

(** * The result *)

Lemma fine_new : fine nobody new_raml.
Proof.
  split; cbn; try (intros; contradiction); auto.
  - split; cbn.
    + intros x c N. destruct x; discriminate.
    + intros x b G. destruct x; discriminate.
    + intros x b y b' c G. destruct x; discriminate.
    + split; [intros x b G|intros x y bx by_ G]; destruct x; discriminate.
Qed.

Lemma known_shape h x : known h x -> exists sh, Spec_Validate.shape_at h x sh.
Proof.
  intros (b & G & N). destruct (b_shape b) as [sh|] eqn:S; [|destruct N; now left]. exists sh. unfold Spec_Validate.shape_at. eauto.
Qed.

Lemma good_fresh s : good nobody s -> fresh_model (heap s) /\ numbered s
  /\ forall x b, get_base (heap s) x = Some b -> settled b = true.
Proof.
  intros [A B C D].
  assert (K : forall x b, get_base (heap s) x = Some b -> base_ok (heap s) b). { intros x b G. apply get_base_nth in G. exact (A x _ G). }
  assert (Kn : forall x, has (heap s) x TBase -> known (heap s) x).
  { intros x Hx. apply has_base in Hx. destruct Hx as [b G]. exists b. split; auto. intros Ho. exact (B x b G Ho). }
  assert (Sl : forall x l y, get_slice (heap s) x = Some l -> In y l -> has (heap s) y TBase). { intros x l y G J. apply get_slice_nth in G. exact (A x _ G y J). }
  assert (Pr : forall x l k p, get_props (heap s) x = Some l -> In (k, p) l -> has (heap s) (p_base p) TBase). { intros x l k p G J. apply get_props_nth in G. exact (proj2 (A x _ G) k p J). }
  assert (Dt : forall d, has (heap s) d TDT -> exists y, get_dt (heap s) d = Some (Some y) /\ has (heap s) y TBase).
  { intros d (c & N & S). destruct c; try discriminate. destruct (A d _ N) as (y & -> & Hy). exists y. split; auto. now apply get_dt_nth. }
  assert (Ch : forall sh c, shape_ok (heap s) sh -> child (heap s) sh c -> has (heap s) c TBase).
  { intros sh c So Hc. destruct Hc as [f i Q|f ps k p Q J|f ps k p Q J|sl e l m G J|hd].
    - exact (So i Q).
    - destruct So as [So _]. destruct Q as [[_ ->]|(m & _ & Q)]; [destruct J|]. exact (Pr _ _ _ _ Q J).
    - destruct So as [_ So]. destruct Q as [[_ ->]|(m & _ & Q)]; [destruct J|]. exact (Pr _ _ _ _ Q J).
    - eapply Sl; eauto.
    - destruct So. }
  split; [|split; [exact D|]].
  - split; [|split; [intros x b y b' Gx Gy; exact (proj2 D x y b b' Gx Gy)|split; [exact C|]]].
    + intros x b G. pose proof (K x b G) as [K1 K2 K3 K4 K5 K6 K7 K8]. split.
      * split; [now apply has_facets|]. split; [now apply has_props|]. split; [now apply has_slice|]. split.
        -- intros d Q. destruct (Dt d (K4 d Q)) as (y & Gy & _). eauto.
        -- destruct (known_not_hollow _ _ _ (Kn x (get_base_has _ _ _ G)) G) as (sh & S & N). exists sh. split; auto. pose proof (K6 sh S) as So. split.
           ++ intros c Hc. apply known_shape, Kn. eapply Ch; eauto.
           ++ destruct sh; auto.
              ** destruct So as [S1 S2]. split; unfold props_of.
                 --- destruct (o_props f) as [m|]; [destruct (has_props _ _ (S1 m eq_refl)) as [l Gl]; exists l; eauto|exists []; auto].
                 --- destruct (o_pprops f) as [m|]; [destruct (has_props _ _ (S2 m eq_refl)) as [l Gl]; exists l; eauto|exists []; auto].
              ** now apply has_slice.
      * intros c R. apply has_base. destruct R as [m k p Gm J|y Q|l y Gl J|d y Q Gd|sh y S Hc].
        -- eapply Pr; eauto.
        -- now apply K5.
        -- eapply Sl; eauto.
        -- destruct (Dt d (K4 d Q)) as (y' & Gy & Hy). rewrite Gd in Gy. injection Gy as <-. exact Hy.
        -- eapply Ch; eauto.
    + intros x b G. pose proof (K x b G) as [K1 K2 K3 K4 K5 K6 K7 [K8 K9]]. split; auto. split; auto. intros hd S. exact (K6 _ S).
  - intros x b G. pose proof (K x b G) as [K1 K2 K3 K4 K5 K6 K7 K8].
    destruct (known_not_hollow _ _ _ (Kn x (get_base_has _ _ _ G)) G) as (sh & S & N). unfold settled. rewrite S. pose proof (K7 sh S N) as Q.
    destruct sh; auto.
Qed.

Lemma fine_declared U p : fine U p -> declared_ok (H_ p) (raml_of p).
Proof.
  intros F a Dc. apply has_base. destruct Dc as [lib k J K|lib k J K|loc uses J].
  - exact (f_libs _ _ F lib k a J (or_introl K)).
  - exact (f_libs _ _ F lib k a J (or_intror K)).
  - destruct (f_frags _ _ F _ _ _ J) as (y & Q & B). injection Q as <-. exact B.
Qed.

Lemma decode_fragment_fine E n text path p ep p' : fine nobody p -> decode_fragment E n text path p = (Ok ep, p') -> fine nobody p'.
Proof.
  intros F H. unfold decode_fragment in H. destruct (read_head (Rd text 0)) as [[head| | |] rd]; try discriminate.
  destruct (identify_fragment head) as [[]| | |]; try discriminate; apply dbind_ok in H; destruct H as (x & p1 & H1 & H); injection H as _ <-.
  - apply (keep_decode_lib E _ _ _ (proj1 (keep_files E n)) (keep_parse_ne E) (proj2 (keep_files E n)) nobody text path _ _ _ F I H1).
  - apply (keep_decode_dt E _ _ _ (proj1 (keep_files E n)) (keep_parse_ne E) (proj2 (keep_files E n)) nobody text path _ _ _ F I H1).
  - apply (keep_decode_ne E nobody text path _ _ _ F I H1).
Qed.

Lemma resolve_fragment_fine E n p u p' : fine nobody p -> resolve_fragment E n p = (Ok u, p') -> fine nobody p' /\ p_todo p' = [].
Proof.
  intros F H. unfold resolve_fragment in H. apply dbind_ok in H. destruct H as (ok & p1 & H1 & H).
  apply dbind_ok in H. destruct H as (u1 & p2 & H2 & H). destruct ok; [|discriminate]. injection H2 as _ <-.
  destruct (settle_all_fine _ _ _ _ _ _ F H1) as [F1 T1]. destruct (resolve_exts (raml_of p1) (p_exts p1)) as [[good l]| | |]; try discriminate.
  destruct good; [|discriminate]. injection H as _ <-. split; [|exact T1]. destruct F1 as [A B C D0 G I0]. split; auto.
Qed.

(** ParseFromString without unwrapping or validation. *)
Theorem parse_fresh E n O o1 o2 o3 text path ep p : parse_string E n O o1 o2 o3 false false text path = (Ok ep, p) ->
  fresh_model (heap (p_st p)) /\ numbered (p_st p) /\ declared_ok (heap (p_st p)) (raml_of p)
  /\ forall x b, get_base (heap (p_st p)) x = Some b -> settled b = true.
Proof.
  intros H. unfold parse_string, parse_fragment in H. apply dbind_ok in H. destruct H as (ep' & p1 & H1 & H).
  pose proof (decode_fragment_fine _ _ _ _ _ _ _ fine_new H1) as F1. apply dbind_ok in H. destruct H as (u & p2 & H2 & H).
  destruct (resolve_fragment_fine _ _ _ _ _ F1 H2) as [F2 T2]. injection H as _ <-.
  assert (G : good nobody (p_st p2)). { eapply good_weak; [|exact (f_heap _ _ F2)]. cbn. rewrite T2. intros x [[]|[]]. }
  destruct (good_fresh _ G) as (A & B & C). split; auto. split; auto. split; auto. exact (fine_declared _ _ F2).
Qed.

(** The keys of every map differ. *)
Lemma parse_keyed E n O o1 o2 o3 text path ep p : parse_string E n O o1 o2 o3 false false text path = (Ok ep, p) ->
  forall m l, get_props (heap (p_st p)) m = Some l -> NoDup (map fst l).
Proof.
  intros H. unfold parse_string, parse_fragment in H. apply dbind_ok in H. destruct H as (ep' & p1 & H1 & H).
  pose proof (decode_fragment_fine _ _ _ _ _ _ _ fine_new H1) as F1. apply dbind_ok in H. destruct H as (u & p2 & H2 & H).
  destruct (resolve_fragment_fine _ _ _ _ _ F1 H2) as [F2 T2]. injection H as _ <-.
  intros m l G. apply get_props_nth in G. exact (proj1 (g_cells _ _ (f_heap _ _ F2) _ _ G)).
Qed.

(** ** With validation *)

(** The annotations of a resolved model. *)
Definition annotated (p : pst) : Prop :=
  forall e, In e (p_exts p) -> exists a, e_def e = Some a /\ refers (raml_of p) (e_loc e) (e_name e) a /\ isb p a.

Lemma refers_isb U p loc name a : fine U p -> refers (raml_of p) loc name a -> isb p a.
Proof.
  intros F R. destruct R as [l lib O N Dn|uses sh alias T la lib O Q Nd Ou N Oa].
  - cbn in *. assert (Here : forall lib k a, nth_error (p_libs p) k = Some lib \/ In lib (p_libs p) -> forall n, oget n (l_annots lib) = Some a -> isb p a).
    { intros lib0 k a0 [N0|N0] n O0; [apply nth_error_In in N0|]; apply Pipeline_proofs.oget_In in O0; eapply (f_libs _ _ F); eauto. }
    inversion Dn; subst; eapply Here; eauto.
  - cbn in *. apply nth_error_In in N. apply Pipeline_proofs.oget_In in Oa. eapply (f_libs _ _ F); eauto.
Qed.

Lemma refers_same R R' loc name a : r_libs R' = r_libs R -> r_frags R' = r_frags R -> refers R loc name a -> refers R' loc name a.
Proof.
  intros L F H. destruct H as [l lib O N Dn|uses sh alias T la lib O Q Nd Ou N Oa].
  - apply (rf_lib R' loc name a l lib); rewrite ?F, ?L; auto.
  - apply (rf_dt R' loc name a uses sh alias T la lib); rewrite ?F, ?L; auto.
Qed.

Lemma resolve_fragment_annotated E n p u p' : fine nobody p -> resolve_fragment E n p = (Ok u, p') -> annotated p'.
Proof.
  intros F H. destruct (resolve_fragment_fine _ _ _ _ _ F H) as [F' _].
  unfold resolve_fragment in H. apply dbind_ok in H. destruct H as (ok & p1 & H1 & H).
  apply dbind_ok in H. destruct H as (u1 & p2 & H2 & H). destruct ok; [|discriminate]. injection H2 as _ <-.
  destruct (resolve_exts (raml_of p1) (p_exts p1)) as [[good l]| | |] eqn:R; try discriminate.
  destruct good; [|discriminate]. injection H as _ <-. apply Pipeline_proofs.resolve_exts_declared in R.
  intros e J. cbn [p_exts] in J.
  assert (X : exists e0, In e0 (p_exts p1) /\ resolved (raml_of p1) e0 e).
  { clear - R J. induction R as [|x y lx ly Rxy R IH]; [destruct J|]. destruct J as [<-|J]; [exists x; split; [now left|exact Rxy]|].
    destruct (IH J) as (e0 & J0 & R0). exists e0. split; [now right|exact R0]. }
  destruct X as (e0 & _ & Q1 & Q2 & Q3 & a & Q4 & Q5). exists a. split; auto. rewrite Q1, Q2.
  split; [eapply refers_same; [| |exact Q5]; reflexivity|]. apply (refers_isb _ _ (e_loc e0) (e_name e0) a F').
  eapply refers_same; [| |exact Q5]; reflexivity.
Qed.

(** What a successful parse with validation did. *)
Theorem parse_validated E n O o1 o2 o3 text path ep p : parse_string E n O o1 o2 o3 false true text path = (Ok ep, p) ->
  exists p0, parse_string E n O o1 o2 o3 false false text path = (Ok ep, p0)
    /\ annotated p0 /\ validate_shapes n O o3 (raml_of p0) (p_st p0) = (Ok tt, p_st p)
    /\ raml_of p = raml_of p0 /\ p_dts p = p_dts p0.
Proof.
  intros H. unfold parse_string, parse_fragment in H. apply dbind_ok in H. destruct H as (ep' & p1 & H1 & H).
  pose proof (decode_fragment_fine _ _ _ _ _ _ _ fine_new H1) as F1. apply dbind_ok in H. destruct H as (u & p2 & H2 & H).
  apply dbind_ok in H. destruct H as (u3 & p3 & H3 & H). injection H3 as _ <-. apply dbind_ok in H. destruct H as (u4 & p4 & H4 & H). injection H as -> ->.
  destruct (validate_shapes n O o3 (raml_of p2) (p_st p2)) as [r s'] eqn:V. injection H4 as -> <-. exists p2. split; [|split; [|split; [|split]]].
  - unfold parse_string, parse_fragment. unfold dbind at 1. rewrite H1. unfold dbind at 1. rewrite H2. reflexivity.
  - eapply resolve_fragment_annotated; eauto.
  - cbn. destruct u4. exact V.
  - destruct p2; reflexivity.
  - destruct p2; reflexivity.
Qed.
