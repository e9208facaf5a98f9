(** Proofs: the automaton of the parser accepts the tokens of every expression,
    and the generated parser reads them. *)
From Coq Require Import List ZArith Bool Lia String.
From Verif Require Import Atn Spec_Atn Rdt Rdt_gen Spec_Rdt Rdt_proofs Gen_sound Gen_complete Gen_pick.
Import ListNotations.
Open Scope list_scope.
Open Scope Z_scope.

Section Auto.
Variable A : atn.
Hypothesis Htab : forall q, out A q = nth q table [].
Hypothesis Hstop : forall q, isstop q = true -> exists r, stop A q r.
Notation F := (follows A).
Notation T := (map tok_type).

Lemma t_fo q s ts : any A (nth q table []) s ts -> F q s ts.
Proof.
  rewrite <- Htab. intros H.
  assert (G : forall l, (forall e, In e l -> In e (out A q)) -> any A l s ts -> F q s ts).
  { induction l as [|e l IH]; intros J G; [destruct G|]. cbn [any] in G. destruct G as [G|G].
    - assert (I : In e (out A q)) by (apply J; now left). pose proof (out_from _ _ _ I) as Q. rewrite Q in I. destruct (e_label e) as [|rs|i|i].
      + eapply fo_eps; [exact I|exact G].
      + destruct G as (c & r & -> & B & G). eapply fo_in; [exact I|now apply inr_iff|exact G].
      + destruct G.
      + eapply fo_call; [exact I|exact G].
    - apply IH; [|exact G]. intros x X. apply J. now right. }
  apply (G (out A q)); auto.
Qed.
Lemma t_ret q t s ts : isstop q = true -> F t s ts -> F q (t :: s) ts.
Proof. intros H K. destruct (Hstop q H) as [r S]. eapply fo_ret; [exact S|exact K]. Qed.

Ltac tf :=
  apply t_fo;
  match goal with
  | |- any _ (nth ?q table []) _ _ =>
      let x := eval vm_compute in (nth q table []) in
      let E := fresh in
      assert (E : nth q table [] = x) by (vm_compute; reflexivity);
      rewrite E; clear E
  end;
  cbn [any e_label e_to inr].
Ltac rt := apply t_ret; [reflexivity|].
Ltac rd := eexists _, _; split; [reflexivity|]; split; [left; lia|].

Lemma t6 t s c r : 7 <= c <= 20 -> F t s r -> F 6 (t :: s) (c :: r).
Proof. intros B H. tf. left. tf. left. eexists _, _. split; [reflexivity|]. split; [left; exact B|]. tf. left. now rt. Qed.
Lemma t16 t s o x r : F t s r -> F 16 (t :: s) (T (leaves_atom (ARef x o)) ++ r).
Proof.
  intros H. tf. left. tf. left. destruct o as [y|]; simpl; rd.
  - tf. left. tf. left. rd. tf. left. rd. tf. left. now rt.
  - tf. right. left. tf. left. now rt.
Qed.
Lemma prim_range p : 7 <= prim_type p <= 20.
Proof. destruct p; simpl; lia. Qed.

Section Rec.
Variable bound : nat.
Hypothesis Hex : forall e t s r, (List.length (leaves e) < bound)%nat -> F t s r -> F 2 (t :: s) (T (leaves e) ++ r).

Lemma atom_acc a ret s r : (List.length (leaves_atom a) <= bound)%nat -> F ret s r -> ops A ret s (T (leaves_atom a) ++ r).
Proof.
  intros L H. unfold ops. destruct a as [p|e|x o].
  - left. simpl. apply t6; [apply prim_range|exact H].
  - right. left. cbn [leaves_atom] in *. simpl in L. rewrite app_length in L. simpl in L. tf. left. tf. left.
    cbn [map tok_type app]. rewrite map_app, <- app_assoc. rd. tf. right. left. tf. left. tf. left. apply Hex; [lia|].
    tf. right. left. tf. left. tf. left. cbn [map tok_type app]. rd. tf. left. now rt.
  - right. right. now apply t16.
Qed.
Lemma typ_acc y t s r : (List.length (leaves_typ y) <= bound)%nat -> F t s r -> F 4 (t :: s) (T (leaves_typ y) ++ r).
Proof.
  intros L H. tf. left. destruct y as [a|a|a]; cbn [leaves_typ] in *.
  - destruct (atom_acc a 31 (t :: s) r L) as [G|[G|G]].
    + tf. left. now rt.
    + tf. left. tf. left. exact G.
    + tf. right. left. tf. left. exact G.
    + tf. right. right. left. tf. left. exact G.
  - rewrite app_length in L. simpl in L. rewrite map_app, <- app_assoc. tf. right. right. right. left. tf. left. tf. left.
    assert (K : F 45 (31%nat :: t :: s) (T [KArray] ++ r)).
    { tf. left. tf. left. cbn [map tok_type app]. rd. tf. left. rt. tf. left. now rt. }
    destruct (atom_acc a 45 (31%nat :: t :: s) (T [KArray] ++ r) ltac:(lia) K) as [G|[G|G]].
    + tf. left. tf. left. exact G.
    + tf. right. left. tf. left. exact G.
    + tf. right. right. left. tf. left. exact G.
  - rewrite app_length in L. simpl in L. rewrite map_app, <- app_assoc. tf. right. right. right. right. left. tf. left. tf. left.
    assert (K : F 38 (31%nat :: t :: s) (T [KOpt] ++ r)).
    { tf. left. tf. left. cbn [map tok_type app]. rd. tf. left. rt. tf. left. now rt. }
    destruct (atom_acc a 38 (31%nat :: t :: s) (T [KOpt] ++ r) ltac:(lia) K) as [G|[G|G]].
    + tf. left. tf. left. exact G.
    + tf. right. left. tf. left. exact G.
    + tf. right. right. left. tf. left. exact G.
Qed.
Lemma members_acc ts : forall y s r, (List.length (leaves_typ y ++ flat_map (fun t => KPipe :: leaves_typ t) ts) <= bound)%nat -> F 13 s r ->
  F 69 s (3 :: T (leaves_typ y ++ flat_map (fun t => KPipe :: leaves_typ t) ts) ++ r).
Proof.
  induction ts as [|y' ts IH]; intros y s r L H; rewrite app_length in L; tf; left; tf; left; rd; tf; right; left; tf; left; tf; left;
    rewrite map_app, <- app_assoc; (apply typ_acc; [lia|]); tf; right; left; tf; left; tf; left; tf.
  - right. left. tf. left. exact H.
  - left. cbn [flat_map] in L. simpl in L. rewrite app_length in L. apply (IH y' s r); [rewrite app_length; lia|exact H].
Qed.
End Rec.

Lemma expr_acc n : forall e t s r, (List.length (leaves e) < n)%nat -> F t s r -> F 2 (t :: s) (T (leaves e) ++ r).
Proof.
  induction n as [|n IH]; intros e t s r L H; [lia|]. tf. left. destruct e as [y|y1 y2 ys]; cbn [leaves] in *.
  - tf. left. tf. left. apply (typ_acc n IH); [lia|]. tf. left. now rt.
  - tf. right. left. tf. left. tf. left. tf. left. rewrite app_length in L. simpl in L. rewrite map_app, <- app_assoc.
    apply (typ_acc n IH); [lia|]. tf. right. left. tf. left. cbn [map tok_type app]. apply (members_acc n IH ys y2); [lia|]. rt. tf. left. now rt.
Qed.
Lemma entry_acc e : F 0 [] (types (map tok_code (leaves e))).
Proof.
  tf. left. tf. left. unfold types. rewrite map_map. cbn [tok_code fst]. apply (expr_acc (S (List.length (leaves e)))); [lia|].
  tf. left. rd. tf. left. destruct (Hstop 1 eq_refl) as [r S]. econstructor. exact S.
Qed.
End Auto.

Lemma parser_dec : nth_error (at_decisions parser_atn) 0 = Some 23%nat /\ nth_error (at_decisions parser_atn) 1 = Some 30%nat
  /\ nth_error (at_decisions parser_atn) 6 = Some 66%nat.
Proof. repeat split; vm_compute; reflexivity. Qed.

Lemma sane_bounds pred : sane parser_atn pred -> (forall st ts, (pred 0 st ts <= 2)%nat) /\ (forall st ts, (pred 1 st ts <= 5)%nat)
  /\ (forall st ts, (pred 6 st ts <= 2)%nat).
Proof.
  intros H. destruct parser_dec as (D0 & D1 & D6). repeat split; intros st ts.
  - specialize (H _ _ st ts D0). rewrite out_table in H. exact H.
  - specialize (H _ _ st ts D1). rewrite out_table in H. exact H.
  - specialize (H _ _ st ts D6). rewrite out_table in H. exact H.
Qed.

Lemma accepted_read pred n l : viable parser_atn pred -> (List.length l < n)%nat -> follows parser_atn 0 [] (types l) ->
  exists t, entrypoint pred n l = Ok t [].
Proof.
  intros V L. destruct parser_dec as (D0 & D1 & D6).
  assert (E23 : nth 23 table [] = [Edge 23 LEps 21; Edge 23 LEps 22]) by (vm_compute; reflexivity).
  assert (E30 : nth 30 table [] = [Edge 30 LEps 25; Edge 30 LEps 26; Edge 30 LEps 27; Edge 30 LEps 28; Edge 30 LEps 29]) by (vm_compute; reflexivity).
  assert (E66 : nth 66 table [] = [Edge 66 LEps 64; Edge 66 LEps 67]) by (vm_compute; reflexivity).
  assert (G : forall q s ts, isstop q = false -> forallb (fun e => match e_label e with LEps => true | _ => false end) (nth q table []) = true ->
    follows parser_atn q s ts -> exists e, In e (out parser_atn q) /\ follows parser_atn (e_to e) s ts).
  { intros q s ts S Fa H. inversion H as [? r S'|? t ? ? J G|? l0 t ? c ? J I G|? i t ? ? J G|? r t ? ? S' G]; subst.
    - apply stop_table in S'. congruence.
    - eexists. split; [exact J|exact G].
    - exfalso. rewrite out_table in J. rewrite forallb_forall in Fa. apply Fa in J. discriminate.
    - exfalso. rewrite out_table in J. rewrite forallb_forall in Fa. apply Fa in J. discriminate.
    - apply stop_table in S'. congruence. }
  apply (entrypoint_ok parser_atn out_table stop_table pred); [| | |exact L].
  - intros s ts H. apply G in H; [|reflexivity|rewrite E23; reflexivity]. destruct (V _ _ _ _ D0 H) as (i & e & -> & N & K).
    rewrite out_table, E23 in N. destruct i as [|[|i]]; [| |destruct i; discriminate]; injection N as <-; auto.
  - intros s ts H. apply G in H; [|reflexivity|rewrite E30; reflexivity]. destruct (V _ _ _ _ D1 H) as (i & e & -> & N & K).
    rewrite out_table, E30 in N. destruct i as [|[|[|[|[|i]]]]]; [| | | | |destruct i; discriminate]; injection N as <-; simpl in K; tauto.
  - intros s ts H. apply G in H; [|reflexivity|rewrite E66; reflexivity]. destruct (V _ _ _ _ D6 H) as (i & e & -> & N & K).
    rewrite out_table, E66 in N. destruct i as [|[|i]]; [| |destruct i; discriminate]; injection N as <-; auto.
Qed.

Definition the_pick := pick parser_atn ranks top_rank.
Lemma the_pick_sane : sane parser_atn the_pick.
Proof. apply pick_sane. Qed.
Lemma the_pick_viable : viable parser_atn the_pick.
Proof. apply pick_viable. exact parser_ranked. Qed.

Lemma parser_language toks : follows parser_atn 0 [] (types (map tok_code toks)) <-> exists e, leaves e = toks.
Proof.
  split.
  - intros H. destruct (accepted_read the_pick (S (List.length (map tok_code toks))) (map tok_code toks) the_pick_viable (Nat.lt_succ_diag_r _) H) as [t E].
    destruct (sane_bounds _ the_pick_sane) as (P0 & P1 & P6). apply entrypoint_sound in E; auto. destruct E as (e & Q & _). eauto.
  - intros (e & <-). apply (entry_acc parser_atn out_table table_stop).
Qed.

Lemma generated_iff pred toks n t r : sane parser_atn pred -> viable parser_atn pred -> (List.length toks < n)%nat ->
  (entrypoint pred n (map tok_code toks) = Ok t r <-> exists e, leaves e = toks /\ t = Node 0 [tree e; Leaf eof] /\ r = []).
Proof.
  intros S V L. destruct (sane_bounds _ S) as (P0 & P1 & P6). split.
  - intros H. apply entrypoint_sound in H; auto.
  - intros (e & Q & -> & ->). destruct (accepted_read pred n (map tok_code toks) V) as [t' E].
    + rewrite map_length. exact L.
    + apply parser_language. eauto.
    + rewrite E. apply entrypoint_sound in E; auto. destruct E as (e' & Q' & -> & _). rewrite <- Q in Q'. apply leaves_inj in Q'. now subst.
Qed.

(** * Trees stand for one expression *)

Fixpoint fringe (t : ptree) : list token :=
  match t with Node _ ks => flat_map fringe ks | Leaf x => [x] end.
Lemma fringe_tree n : forall e, (List.length (leaves e) < n)%nat -> fringe (tree e) = map tok_code (leaves e).
Proof.
  induction n as [|n IH]; intros e L; [lia|].
  assert (At : forall a, (List.length (leaves_atom a) <= n)%nat -> fringe (tree_atom a) = map tok_code (leaves_atom a)).
  { intros [p|e'|s [t|]] B; cbn [tree_atom leaves_atom] in *; try reflexivity. simpl in B. rewrite app_length in B. simpl in B.
    cbn [fringe flat_map map]. rewrite IH by lia. rewrite map_app. reflexivity. }
  assert (Ty : forall y, (List.length (leaves_typ y) <= n)%nat -> fringe (tree_typ y) = map tok_code (leaves_typ y)).
  { intros [a|a|a] B; cbn [tree_typ leaves_typ] in *; cbn [fringe flat_map]; rewrite ?app_nil_r, ?app_length in *; simpl in B; rewrite At by lia; rewrite ?map_app; reflexivity. }
  destruct e as [y|y1 y2 ys]; cbn [tree leaves] in *.
  - cbn [fringe flat_map]. rewrite app_nil_r. apply Ty. lia.
  - cbn [fringe flat_map leaf]. rewrite app_nil_r. rewrite app_length in L. simpl in L. rewrite app_length in L.
    rewrite !Ty by lia. rewrite map_app. f_equal. cbn [map app]. f_equal. rewrite map_app. f_equal.
    assert (K : (List.length (flat_map (fun t => KPipe :: leaves_typ t) ys) <= n)%nat) by lia. clear - Ty K.
    induction ys as [|y ys IHy]; [reflexivity|]. cbn [flat_map] in *. simpl in K. rewrite app_length in K.
    change (leaf KPipe) with (Leaf (tok_code KPipe)) in *. cbn [app flat_map fringe]. rewrite Ty by lia. rewrite IHy by lia. simpl. now rewrite map_app.
Qed.
Lemma tok_code_inj x y : tok_code x = tok_code y -> x = y.
Proof.
  unfold tok_code. intros H. injection H as H K.
  destruct x as [| | | | | |p|s], y as [| | | | | |q|u]; simpl in *; try discriminate; try reflexivity; try (destruct p; discriminate); try (destruct q; discriminate).
  - destruct p, q; try discriminate; reflexivity.
  - f_equal. revert u K. unfold Spec_Atn.codes. induction s as [|c s IH]; intros [|d u] Q; try discriminate; [reflexivity|].
    injection Q as Q R. f_equal; [|auto]. apply Nat2Z.inj in Q.
    rewrite <- (Ascii.ascii_nat_embedding c), <- (Ascii.ascii_nat_embedding d). now rewrite Q.
Qed.
Lemma tree_inj e e' : tree e = tree e' -> e = e'.
Proof.
  intros H. apply leaves_inj. apply (f_equal fringe) in H.
  rewrite (fringe_tree (S (List.length (leaves e)))), (fringe_tree (S (List.length (leaves e')))) in H by lia.
  revert H. generalize (leaves e) (leaves e'). induction l as [|x l IH]; intros [|y l'] Q; try discriminate; [reflexivity|].
  injection Q as Q1 Q2 Q3. f_equal; [apply tok_code_inj; unfold tok_code; now rewrite Q1, Q2|auto].
Qed.
