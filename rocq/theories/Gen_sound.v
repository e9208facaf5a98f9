(** Proofs: what the generated parser accepts, and that it comes to an end,
    whatever the predictions. *)
From Coq Require Import List ZArith Bool Lia.
From Verif Require Import Atn Spec_Atn Rdt Rdt_gen Spec_Rdt.
Import ListNotations.
Open Scope list_scope.
Open Scope Z_scope.

Lemma rthen_ok {A B} (m : res A) (k : A -> list token -> res B) b r :
  rthen m k = Ok b r -> exists a r1, m = Ok a r1 /\ k a r1 = Ok b r.
Proof. destruct m; simpl; try discriminate. eauto. Qed.

Lemma type_no_eof x : tok_type x <> -1 /\ tok_type x <> 22.
Proof. destruct x as [| | | | | |p|s]; simpl; try lia. destruct p; simpl; lia. Qed.

Notation cs := (map tok_code).

Lemma match_sound k toks t r : match_ k (cs toks) = Ok t r -> k <> -1 ->
  exists x r', toks = x :: r' /\ tok_type x = k /\ t = leaf x /\ r = cs r'.
Proof.
  destruct toks as [|x toks]; simpl; intros H K.
  - destruct (Z.eqb_spec k (-1)); [congruence|discriminate].
  - destruct (Z.eqb_spec (tok_type x) k) as [E|]; [|discriminate]. injection H as <- <-. exists x, toks. auto.
Qed.
Lemma spaces_none toks : spaces (cs toks) = ([], cs toks).
Proof. destruct toks as [|x toks]; simpl; [reflexivity|]. destruct (Z.eqb_spec (tok_type x) 22) as [E|]; [|reflexivity]. now apply type_no_eof in E. Qed.

Lemma is_ident x : tok_type x = 21 -> exists s, x = KIdent s.
Proof. destruct x as [| | | | | |p|s]; simpl; try discriminate; eauto. destruct p; discriminate. Qed.
Lemma is_one x k : tok_type x = k -> (k = 1 -> x = KLparen) /\ (k = 2 -> x = KRparen) /\ (k = 3 -> x = KPipe)
  /\ (k = 4 -> x = KArray) /\ (k = 5 -> x = KOpt) /\ (k = 6 -> x = KDot).
Proof. intros <-. destruct x as [| | | | | |p|s]; simpl; repeat split; try congruence. all: destruct p; simpl; congruence. Qed.

Lemma primitive_sound toks t r : primitive (cs toks) = Ok t r ->
  exists p r', toks = KPrim p :: r' /\ t = tree_atom (APrim p) /\ r = cs r'.
Proof.
  unfold primitive. destruct toks as [|x toks]; [discriminate|].
  cbn [map la tok_code]. destruct x as [| | | | | |p|s]; try discriminate.
  destruct (_ && _); [|discriminate]. intros H. injection H as <- <-. exists p, toks. auto.
Qed.

Lemma reference_sound toks t r : reference (cs toks) = Ok t r ->
  exists s o r', toks = leaves_atom (ARef s o) ++ r' /\ t = tree_atom (ARef s o) /\ r = cs r'.
Proof.
  unfold reference. intros H. apply rthen_ok in H. destruct H as (a & l1 & M & H). apply match_sound in M; [|discriminate].
  destruct M as (x & r1 & -> & T & -> & ->). apply is_ident in T. destruct T as [s ->].
  destruct (Z.eqb_spec (la (cs r1)) 6).
  - apply rthen_ok in H. destruct H as (d & l2 & M & H). apply match_sound in M; [|discriminate].
    destruct M as (x & r2 & -> & T & -> & ->). apply is_one in T. assert (x = KDot) by (apply T; reflexivity). subst x.
    apply rthen_ok in H. destruct H as (b & l3 & M & H). apply match_sound in M; [|discriminate].
    destruct M as (x & r3 & -> & T' & -> & ->). apply is_ident in T'. destruct T' as [s' ->]. injection H as <- <-.
    exists s, (Some s'), r3. auto.
  - injection H as <- <-. exists s, None, r1. auto.
Qed.

Section Pred.
Variable pred : nat -> list nat -> list Z -> nat.
Hypothesis P0 : forall st ts, (pred 0 st ts <= 2)%nat.
Hypothesis P1 : forall st ts, (pred 1 st ts <= 5)%nat.
Hypothesis P6 : forall st ts, (pred 6 st ts <= 2)%nat.

Section Rec.
Variable ex : list nat -> list token -> res ptree.
Hypothesis Hex : forall st toks t r, ex st (cs toks) = Ok t r -> exists e r', toks = leaves e ++ r' /\ t = tree e /\ r = cs r'.

Lemma group_sound st toks t r : group ex st (cs toks) = Ok t r ->
  exists e r', toks = leaves_atom (AGroup e) ++ r' /\ t = tree_atom (AGroup e) /\ r = cs r'.
Proof.
  unfold group. intros H. apply rthen_ok in H. destruct H as (a & l1 & M & H). apply match_sound in M; [|discriminate].
  destruct M as (x & r1 & -> & T & -> & ->). apply is_one in T. assert (x = KLparen) by (apply T; reflexivity). subst x. clear T.
  rewrite spaces_none in H. apply rthen_ok in H. destruct H as (k & l2 & E & H). apply Hex in E. destruct E as (e & r2 & -> & -> & ->).
  rewrite spaces_none in H. apply rthen_ok in H. destruct H as (b & l3 & M & H). apply match_sound in M; [|discriminate].
  destruct M as (x & r3 & -> & T & -> & ->). apply is_one in T. assert (x = KRparen) by (apply T; reflexivity). subst x.
  injection H as <- <-. exists e, r3. split; [|auto]. cbn [leaves_atom]. simpl. now rewrite <- app_assoc.
Qed.

Definition atomic (toks : list tok) (t : ptree) (r : list token) : Prop :=
  exists a r', toks = leaves_atom a ++ r' /\ t = tree_atom a /\ r = cs r'.

Lemma a_prim toks t r : primitive (cs toks) = Ok t r -> atomic toks t r.
Proof. intros H. apply primitive_sound in H. destruct H as (p & r' & -> & -> & ->). exists (APrim p), r'. auto. Qed.
Lemma a_ref toks t r : reference (cs toks) = Ok t r -> atomic toks t r.
Proof. intros H. apply reference_sound in H. destruct H as (s & o & r' & -> & -> & ->). exists (ARef s o), r'. auto. Qed.
Lemma a_group st toks t r : group ex st (cs toks) = Ok t r -> atomic toks t r.
Proof. intros H. apply group_sound in H. destruct H as (e & r' & -> & -> & ->). exists (AGroup e), r'. auto. Qed.

Lemma operand_sound ret st toks t r : operand ex ret st (cs toks) = Ok t r -> atomic toks t r.
Proof.
  unfold operand. destruct (existsb _ _); [apply a_prim|]. destruct (_ =? _); [apply a_group|]. destruct (_ =? _); [apply a_ref|discriminate].
Qed.

Lemma type_sound st toks t r : type_ pred ex st (cs toks) = Ok t r ->
  exists y r', toks = leaves_typ y ++ r' /\ t = tree_typ y /\ r = cs r'.
Proof.
  unfold type_. specialize (P1 st (types (cs toks))). intros H.
  assert (G : forall (m : res ptree), (forall t r, m = Ok t r -> atomic toks t r) -> rthen m (fun t l => Ok (Node 2 [t]) l) = Ok t r ->
    exists y r', toks = leaves_typ y ++ r' /\ t = tree_typ y /\ r = cs r').
  { intros m Q K. apply rthen_ok in K. destruct K as (a & l1 & M & K). injection K as <- <-. apply Q in M. destruct M as (a0 & r' & -> & -> & ->).
    exists (TAtom a0), r'. auto. }
  destruct (pred 1 st (types (cs toks))) as [|[|[|[|[|[|n]]]]]]; [discriminate| | | | | |lia].
  - revert H. apply G. intros. now apply a_prim.
  - revert H. apply G. intros ? ?. apply a_group.
  - revert H. apply G. intros. now apply a_ref.
  - apply rthen_ok in H. destruct H as (a & l1 & M & H). injection H as <- <-. unfold array in M.
    apply rthen_ok in M. destruct M as (b & l2 & M & H). apply operand_sound in M. destruct M as (a0 & r' & -> & -> & ->).
    apply rthen_ok in H. destruct H as (c & l3 & M & H). apply match_sound in M; [|discriminate].
    destruct M as (x & r1 & -> & T & -> & ->). apply is_one in T. assert (x = KArray) by (apply T; reflexivity). subst x.
    injection H as <- <-. exists (TArray a0), r1. split; [|auto]. cbn [leaves_typ]. now rewrite <- app_assoc.
  - apply rthen_ok in H. destruct H as (a & l1 & M & H). injection H as <- <-. unfold optional in M.
    apply rthen_ok in M. destruct M as (b & l2 & M & H). apply operand_sound in M. destruct M as (a0 & r' & -> & -> & ->).
    apply rthen_ok in H. destruct H as (c & l3 & M & H). apply match_sound in M; [|discriminate].
    destruct M as (x & r1 & -> & T & -> & ->). apply is_one in T. assert (x = KOpt) by (apply T; reflexivity). subst x.
    injection H as <- <-. exists (TOptional a0), r1. split; [|auto]. cbn [leaves_typ]. now rewrite <- app_assoc.
Qed.

Lemma trailing_sound n : forall st toks w r, trailing pred n st (cs toks) = Ok w r -> w = [] /\ r = cs toks.
Proof.
  induction n as [|n IH]; intros st toks w r; [discriminate|]. cbn [trailing]. specialize (P6 st (types (cs toks))).
  destruct (pred 6 st (types (cs toks))) as [|[|[|k]]]; [discriminate| | |lia]; intros H.
  - apply rthen_ok in H. destruct H as (a & l & M & _). apply match_sound in M; [|discriminate]. destruct M as (x & r' & _ & T & _).
    now apply type_no_eof in T.
  - injection H as <- <-. auto.
Qed.

Lemma members_sound n : forall st toks ms r, members pred ex n st (cs toks) = Ok ms r ->
  exists t ts r', toks = KPipe :: leaves_typ t ++ flat_map (fun t => KPipe :: leaves_typ t) ts ++ r'
    /\ ms = leaf KPipe :: tree_typ t :: flat_map (fun t => [leaf KPipe; tree_typ t]) ts /\ r = cs r'.
Proof.
  induction n as [|n IH]; intros st toks ms r; [discriminate|]. cbn [members]. intros H.
  apply rthen_ok in H. destruct H as (p & l1 & M & H). apply match_sound in M; [|discriminate].
  destruct M as (x & r1 & -> & T & -> & ->). apply is_one in T. assert (x = KPipe) by (apply T; reflexivity). subst x. clear T.
  rewrite spaces_none in H. apply rthen_ok in H. destruct H as (t & l2 & M & H). apply type_sound in M. destruct M as (y & r2 & -> & -> & ->).
  apply rthen_ok in H. destruct H as (w & l3 & M & H). apply trailing_sound in M. destruct M as [-> ->]. cbn [app] in H.
  destruct (la (cs r2) =? 3).
  - apply rthen_ok in H. destruct H as (ms' & l4 & M & H). apply IH in M. destruct M as (t' & ts & r' & -> & -> & ->). injection H as <- <-.
    exists y, (t' :: ts), r'. split; [|auto]. cbn [flat_map]. simpl. now rewrite <- !app_assoc.
  - injection H as <- <-. exists y, [], r2. auto.
Qed.
End Rec.

Lemma expression_sound n : forall st toks t r, expression pred n st (cs toks) = Ok t r ->
  exists e r', toks = leaves e ++ r' /\ t = tree e /\ r = cs r'.
Proof.
  induction n as [|n IH]; intros st toks t r; [discriminate|]. cbn [expression]. specialize (P0 st (types (cs toks))).
  destruct (pred 0 st (types (cs toks))) as [|[|[|k]]]; [discriminate| | |lia]; intros H; apply rthen_ok in H;
    destruct H as (a & l & M & H); injection H as <- <-.
  - apply (type_sound _ IH) in M. destruct M as (y & r' & -> & -> & ->). exists (EType y), r'. auto.
  - unfold union in M. apply rthen_ok in M. destruct M as (b & l1 & M & H). apply (type_sound _ IH) in M. destruct M as (y & r' & -> & -> & ->).
    rewrite spaces_none in H. apply rthen_ok in H. destruct H as (ms & l2 & M & H). apply (members_sound _ IH) in M.
    destruct M as (t & ts & r2 & -> & -> & ->). injection H as <- <-. exists (EUnion y t ts), r2. split; [|auto].
    cbn [leaves]. rewrite <- app_assoc. simpl. now rewrite <- app_assoc.
Qed.

Lemma entrypoint_sound n toks t r : entrypoint pred n (cs toks) = Ok t r ->
  exists e, leaves e = toks /\ t = Node 0 [tree e; Leaf eof] /\ r = [].
Proof.
  unfold entrypoint. intros H. apply rthen_ok in H. destruct H as (a & l & M & H). apply expression_sound in M. destruct M as (e & r' & -> & -> & ->).
  apply rthen_ok in H. destruct H as (z & l2 & M & H). injection H as <- <-. destruct r' as [|x r'].
  - injection M as <- <-. exists e. rewrite app_nil_r. auto.
  - simpl in M. destruct (Z.eqb_spec (tok_type x) (-1)) as [E|]; [|discriminate]. now apply type_no_eof in E.
Qed.

(** * It comes to an end *)

Definition eats {A} (l : list token) (m : res A) : Prop :=
  m <> Fuel /\ forall a r, m = Ok a r -> (List.length r < List.length l)%nat.
Definition keeps {A} (l : list token) (m : res A) : Prop :=
  m <> Fuel /\ forall a r, m = Ok a r -> (List.length r <= List.length l)%nat.

Lemma eats_then {A B} l (m : res A) (k : A -> list token -> res B) :
  eats l m -> (forall a r, m = Ok a r -> (List.length r < List.length l)%nat -> keeps r (k a r)) -> eats l (rthen m k).
Proof.
  intros [F L] H. destruct m as [a r| |]; simpl.
  - specialize (L a r eq_refl). destruct (H a r eq_refl L) as [F' L']. split; [exact F'|]. intros b r' Q. apply L' in Q. lia.
  - split; [discriminate|discriminate].
  - congruence.
Qed.
Lemma keeps_then {A B} l (m : res A) (k : A -> list token -> res B) :
  keeps l m -> (forall a r, m = Ok a r -> (List.length r <= List.length l)%nat -> keeps r (k a r)) -> keeps l (rthen m k).
Proof.
  intros [F L] H. destruct m as [a r| |]; simpl.
  - specialize (L a r eq_refl). destruct (H a r eq_refl L) as [F' L']. split; [exact F'|]. intros b r' Q. apply L' in Q. lia.
  - split; [discriminate|discriminate].
  - congruence.
Qed.
Lemma eats_keeps {A} l (m : res A) : eats l m -> keeps l m.
Proof. intros [F L]. split; [exact F|]. intros a r H. apply L in H. lia. Qed.
Lemma keeps_ok {A} l (a : A) : keeps l (Ok a l).
Proof. split; [discriminate|]. intros b r H. injection H as <- <-. lia. Qed.
Lemma match_eats k l : k <> -1 -> eats l (match_ k l).
Proof.
  intros K. unfold match_. destruct l as [|[k' w] r].
  - destruct (Z.eqb_spec k (-1)); [congruence|]. split; discriminate.
  - destruct (k' =? k); split; try discriminate. intros a r' H. injection H as <- <-. simpl. lia.
Qed.
Lemma spaces_len l : (List.length (snd (spaces l)) <= List.length l)%nat.
Proof. induction l as [|[k w] l IH]; simpl; [lia|]. destruct (k =? 22); [|simpl; lia]. destruct (spaces l). simpl in *. lia. Qed.

Lemma prim_eats l : eats l (primitive l).
Proof. unfold primitive. destruct (_ && _); [|split; discriminate]. destruct l; split; try discriminate. intros a r H. injection H as <- <-. simpl. lia. Qed.
Lemma ref_eats l : eats l (reference l).
Proof.
  unfold reference. apply eats_then; [apply match_eats; discriminate|]. intros a r _ _. destruct (_ =? _); [|apply keeps_ok].
  apply keeps_then; [apply eats_keeps, match_eats; discriminate|]. intros d r1 _ _.
  apply keeps_then; [apply eats_keeps, match_eats; discriminate|]. intros b r2 _ _. apply keeps_ok.
Qed.

Section Ends.
Variable ex : list nat -> list token -> res ptree.
Variable bound : nat.
Hypothesis Hex : forall st l, (List.length l < bound)%nat -> eats l (ex st l).

Lemma group_eats st l : (List.length l <= bound)%nat -> eats l (group ex st l).
Proof.
  intros L. unfold group. apply eats_then; [apply match_eats; discriminate|]. intros a r _ L1.
  pose proof (spaces_len r). destruct (spaces r) as [w1 r1]. simpl in H. apply eats_keeps.
  assert (E : eats r1 (rthen (ex (84%nat :: st) r1) (fun e l => let (w2, l) := spaces l in
    rthen (match_ 2 l) (fun b l => Ok (Node 7 (a :: w1 ++ e :: w2 ++ [b])) l)))).
  { apply eats_then; [apply Hex; lia|]. intros e r2 _ L2. pose proof (spaces_len r2). destruct (spaces r2) as [w2 r3]. simpl in H0.
    assert (K : keeps r3 (rthen (match_ 2 r3) (fun b l => Ok (Node 7 (a :: w1 ++ e :: w2 ++ [b])) l))).
    { apply keeps_then; [apply eats_keeps, match_eats; discriminate|]. intros b r4 _ _. apply keeps_ok. }
    destruct K as [F K]. split; [exact F|]. intros x y Q. apply K in Q. lia. }
  destruct E as [F K]. split; [exact F|]. intros x y Q. apply K in Q. lia.
Qed.
Lemma operand_eats ret st l : (List.length l <= bound)%nat -> eats l (operand ex ret st l).
Proof.
  intros L. unfold operand. destruct (existsb _ _); [apply prim_eats|]. destruct (_ =? _); [now apply group_eats|].
  destruct (_ =? _); [apply ref_eats|]. split; discriminate.
Qed.
Lemma type_eats st l : (List.length l <= bound)%nat -> eats l (type_ pred ex st l).
Proof.
  intros L. unfold type_. specialize (P1 st (types l)).
  destruct (pred 1 st (types l)) as [|[|[|[|[|[|n]]]]]]; [split; discriminate| | | | | |lia];
    (apply eats_then; [|intros; apply keeps_ok]).
  - apply prim_eats.
  - now apply group_eats.
  - apply ref_eats.
  - unfold array. apply eats_then; [now apply operand_eats|]. intros a r _ _.
    apply keeps_then; [apply eats_keeps, match_eats; discriminate|]. intros; apply keeps_ok.
  - unfold optional. apply eats_then; [now apply operand_eats|]. intros a r _ _.
    apply keeps_then; [apply eats_keeps, match_eats; discriminate|]. intros; apply keeps_ok.
Qed.
Lemma trailing_keeps n : forall st l, (List.length l < n)%nat -> keeps l (trailing pred n st l).
Proof.
  induction n as [|n IH]; intros st l L; [lia|]. cbn [trailing]. specialize (P6 st (types l)).
  destruct (pred 6 st (types l)) as [|[|[|k]]]; [split; discriminate| |apply keeps_ok|lia].
  apply eats_keeps, eats_then; [apply match_eats; discriminate|]. intros a r _ L1.
  apply keeps_then; [apply IH; lia|]. intros; apply keeps_ok.
Qed.
Lemma members_eats n : forall st l, (List.length l < n)%nat -> (List.length l <= bound)%nat -> eats l (members pred ex n st l).
Proof.
  induction n as [|n IH]; intros st l L B; [lia|]. cbn [members]. apply eats_then; [apply match_eats; discriminate|]. intros p r _ L1.
  pose proof (spaces_len r). destruct (spaces r) as [w1 r1]. simpl in H.
  match goal with |- keeps r ?m => assert (E : eats r1 m) end.
  { apply eats_then; [apply type_eats; lia|]. intros t r2 _ L2.
    apply keeps_then; [apply trailing_keeps; lia|]. intros w2 r3 _ L3. destruct (_ =? _); [|apply keeps_ok].
    apply keeps_then; [apply eats_keeps, IH; lia|]. intros; apply keeps_ok. }
  destruct E as [F K]. split; [exact F|]. intros x y Q. apply K in Q. lia.
Qed.
Lemma union_eats n st l : (List.length l <= n)%nat -> (List.length l <= bound)%nat -> eats l (union pred ex n st l).
Proof.
  intros L B. unfold union. apply eats_then; [now apply type_eats|]. intros t r _ L1.
  pose proof (spaces_len r). destruct (spaces r) as [w r1]. simpl in H.
  match goal with |- keeps r ?m => assert (E : eats r1 m) end.
  { apply eats_then; [apply members_eats; lia|]. intros; apply keeps_ok. }
  destruct E as [F K]. split; [exact F|]. intros x y Q. apply K in Q. lia.
Qed.
End Ends.

Lemma expression_eats n : forall st l, (List.length l < n)%nat -> eats l (expression pred n st l).
Proof.
  induction n as [|n IH]; intros st l L; [lia|]. cbn [expression]. specialize (P0 st (types l)).
  destruct (pred 0 st (types l)) as [|[|[|k]]]; [split; discriminate| | |lia]; (apply eats_then; [|intros; apply keeps_ok]).
  - apply (type_eats _ n IH). lia.
  - apply (union_eats _ n IH); lia.
Qed.
Lemma entrypoint_ends n l : (List.length l < n)%nat -> entrypoint pred n l <> Fuel.
Proof.
  intros L. unfold entrypoint. destruct (expression_eats n [19%nat] l L) as [F _]. destruct (expression pred n [19%nat] l) as [a r| |]; simpl; [|discriminate|congruence].
  unfold match_. destruct r as [|[k w] r]; simpl; [discriminate|]. destruct (k =? -1); discriminate.
Qed.
End Pred.
