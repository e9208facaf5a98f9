(** Parsing with a RAML object that was used before. *)
From Coq Require Import ZArith List String Bool Ascii Arith Lia.
From Verif Require Import Base Scalars Heap Rdt Resolve Names Spec_Names Yaml Spec_Yaml Yaml_proofs Validate Pipeline Spec_Pipeline Spec_Resolve Spec_Model
  Decode Parse Spec_Parse Spec_Decode Parse_ends Heap_lemmas Parse_walk Parse_fresh Decode_says Decode_read Decode_made Decode_load Decode_files Decode_settle.
From Verif Require Pipeline_proofs Resolve_proofs.
Import ListNotations.
Open Scope string_scope.
Open Scope list_scope.
Open Scope nat_scope.

(** Nothing is left to do, and the data types are those of their files. *)
Definition rested (p : pst) : Prop := fine nobody p /\ p_todo p = [] /\ forall path l, In (path, l) (p_dts p) -> located p l path.

Lemma rested_new : rested new_raml.
Proof. split; [exact fine_new|split; [reflexivity|intros path l []]]. Qed.

Lemma rested_good p : rested p -> good nobody (p_st p).
Proof. intros (F & T & _). eapply good_weak; [|exact (f_heap _ _ F)]. cbn. rewrite T. intros x [[]|[]]. Qed.

Lemma rested_settled p x b : rested p -> get_base (heap (p_st p)) x = Some b -> b_shape b <> Some SUnknown.
Proof.
  intros R G Q. destruct (good_fresh _ (rested_good p R)) as (_ & _ & S). specialize (S x b G). unfold settled in S. rewrite Q in S. discriminate.
Qed.

Section Again.
Variables (E : denv) (n : nat) (O : oracle) (o1 o2 o3 : list string) (text path0 : string).
Variables (p p' : pst) (ep : entry_point).
Hypothesis R : rested p.
Hypothesis H : parse_fragment E n O o1 o2 o3 false false text path0 p = (Ok ep, p').

Lemma again_steps : exists p1 p3 l, decode_fragment E n text path0 p = (Ok ep, p1) /\ fine nobody p1
  /\ settle_all E n n n true p1 = (Ok true, p3) /\ resolve_exts (raml_of p3) (p_exts p3) = Ok (true, l)
  /\ p' = PSt (p_st p3) (p_libs p3) (p_frags p3) (p_dts p3) l (p_types p3) (p_annots p3) (p_todo p3) (p_facets p3) /\ rested p'.
Proof.
  pose proof H as H0. unfold parse_fragment in H0. apply dbind_inv in H0. destruct H0 as (ep' & p1 & H1 & H0).
  pose proof (decode_fragment_fine _ _ _ _ _ _ _ (proj1 R) H1) as F1. apply dbind_inv in H0. destruct H0 as (u & p2 & H2 & H0).
  destruct (resolve_fragment_fine _ _ _ _ _ F1 H2) as [F2 T2]. injection H0 as -> <-.
  unfold resolve_fragment in H2. apply dbind_inv in H2. destruct H2 as (ok & p3 & H3 & H2).
  apply dbind_inv in H2. destruct H2 as (u1 & p4 & H4 & H2). destruct ok; [|discriminate]. injection H4 as _ <-.
  destruct (resolve_exts (raml_of p3) (p_exts p3)) as [[good l]| | |] eqn:Q; try discriminate. destruct good; [|discriminate].
  injection H2 as _ <-. exists p1, p3, l. repeat (split; auto).
  pose proof (decode_fragment_adds E text path0 (fun _ => False) n p ep p1 H1) as [Ap1 _ _]. pose proof (settle_all_evo E text path0 n n n p1 p3 F1 H3) as V.
  pose proof (stays_trans _ _ _ (e_stays _ _ _ _ Ap1) (ev_stays _ _ _ _ _ _ V)) as Sy.
  intros pa dl I. assert (I3 : In (pa, dl) (p_dts p3)) by exact I. match goal with |- located ?P _ _ => change (located p3 dl pa) end.
  destruct (sy_new _ _ Sy _ _ I3) as [I0|]; auto. eapply located_stays; [exact Sy|]. now apply (proj2 (proj2 R)).
Qed.

Lemma again_rested : rested p'.
Proof. destruct again_steps as (p1 & p3 & l & _ & _ & _ & _ & _ & K). exact K. Qed.

Lemma again_annotated : annotated p'.
Proof.
  pose proof H as H0. unfold parse_fragment in H0. apply dbind_inv in H0. destruct H0 as (ep' & p1 & H1 & H0).
  pose proof (decode_fragment_fine _ _ _ _ _ _ _ (proj1 R) H1) as F1. apply dbind_inv in H0. destruct H0 as (u & p2 & H2 & H0).
  injection H0 as _ <-. exact (resolve_fragment_annotated _ _ _ _ _ F1 H2).
Qed.

Lemma again_kept x b : get_base (heap (p_st p)) x = Some b ->
  get_base (heap (p_st p')) x = Some b /\ forall c v, owns b c -> nth_error (heap (p_st p)) c = Some v -> nth_error (heap (p_st p')) c = Some v.
Proof.
  intros G. destruct again_steps as (p1 & p3 & l & H1 & F1 & H3 & _ & -> & _). cbn [p_st].
  pose proof (decode_fragment_adds E text path0 (fun _ => False) n p ep p1 H1) as [[_ _ C _ _] _ _].
  pose proof (settle_all_evo E text path0 n n n p1 p3 F1 H3) as V.
  assert (U : forall z c, nth_error (heap (p_st p)) z = Some c -> nth_error (heap (p_st p1)) z = Some c).
  { intros z c N. rewrite <- N. apply C; [|intros []]. unfold len, H_. apply nth_error_Some. rewrite N. discriminate. }
  assert (G1 : get_base (heap (p_st p1)) x = Some b) by (apply get_base_nth, U; now apply get_base_nth).
  destruct (ev_old _ _ _ _ _ _ V x b (fun z => z) G1) as [(G3 & K & _)|[Q _]]; [|exfalso; exact (rested_settled p x b R G Q)].
  split; auto. intros c v Ow N. apply (K c Ow). auto.
Qed.

Lemma again_grown : (forall path f, oget path (p_frags p) = Some f -> oget path (p_frags p') = Some f)
  /\ forall l lib, nth_error (p_libs p) l = Some lib -> nth_error (p_libs p') l = Some lib.
Proof.
  destruct again_steps as (p1 & p3 & l & H1 & F1 & H3 & _ & -> & _). cbn [p_frags p_libs].
  pose proof (decode_fragment_adds E text path0 (fun _ => False) n p ep p1 H1) as [_ _ [A B]].
  destruct (ev_grown _ _ _ _ _ _ (settle_all_evo E text path0 n n n p1 p3 F1 H3)) as [A' B']. split; auto.
Qed.

Lemma again_written path f : oget path (p_frags p) = None -> oget path (p_frags p') = Some f ->
  exists text', ((path = path0 /\ text' = text) \/ e_read (d_y E) path = Some text') /\ fragment_says E p' path text' f.
Proof.
  intros New Of. destruct again_steps as (p1 & p3 & l & H1 & F1 & H3 & Rx & Qp & Rs).
  pose proof (decode_fragment_adds E text path0 (fun q => oget q (p_frags p) <> None) n p ep p1 H1) as [_ Ld _].
  assert (Fi : filed E text path0 (fun q => oget q (p_frags p) <> None) none p) by (split; [intros z []|intros pa g Q; left; congruence]).
  destruct (Ld none Fi) as (Z1 & [Lt1 Sa1] & _).
  pose proof (settle_all_evo E text path0 n n n p1 p3 F1 H3) as V.
  assert (S3 : exists text', source E text path0 path text' /\ exists Z, frag_by E (st_with E (route E) Z p3) p3 path text' f).
  { assert (Of3 : oget path (p_frags p3) = Some f) by (rewrite Qp in Of; exact Of).
    destruct (ev_new _ _ _ _ _ _ V _ _ Of3) as [Of1|(text' & So & Fs)]; [|eauto].
    destruct (Sa1 _ _ Of1) as [X|(text' & So & Fs)]; [contradiction|]. exists text'. split; auto. exists (with_new Z1 p1 p3).
    eapply frag_by_move; [|exact (evo_libs _ _ _ _ _ _ V)|exact Fs].
    intros v0 n0 l0 y Hy. apply (evo_carries E text path0 none p1 p3 Z1); auto. eapply st_rt; [|exact Hy]. auto. }
  destruct S3 as (text' & So & Z & Fs). exists text'. split; [exact So|].
  assert (An : annots p3 p').
  { apply Pipeline_proofs.resolve_exts_declared in Rx. intros j e N. rewrite Qp. cbn [p_exts].
    clear - Rx N. revert j N. induction Rx as [|x y lx ly Rxy R IH]; intros j N; [destruct j; discriminate|].
    destruct j as [|j]; cbn in *; [|now apply IH]. injection N as <-. exists y. destruct Rxy as (Q1 & Q2 & Q3 & _). auto. }
  assert (Fp : frag_by E (st_with E (route E) Z p') p' path text' f).
  { refine (frag_by_move E _ _ p3 p' path text' f _ _ Fs); [apply exts_carry; rewrite ?Qp; auto; now rewrite <- Qp|]. intros k lib N. exists lib. rewrite Qp. auto. }
  assert (St : forall v name loc x, st_with E (route E) Z p' v name loc x -> stated E p' v name loc x).
  { intros v name loc x. apply (st_with_stated E (route E) Z p' v name loc x (fun y b => rested_settled p' y b Rs)). intros v0 l0 y b _ _. apply route_routed. exact (proj2 (proj2 Rs)). }
  destruct f as [lb|us o|]; cbn in *; auto.
  - destruct Fp as (doc & lib & D & N & T & A). exists doc, lib. split; auto. split; auto. unfold declares_types.
    split; (eapply filled_weak; [|eassumption]); intros k nd nm x [? Q]; (split; auto); now apply St.
  - destruct Fp as (doc & v & x & Q & D & Kd & En & Sx). exists doc, v, x. repeat (split; auto).
Qed.
End Again.
