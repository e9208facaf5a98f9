(** Proofs: the generated parser accepts what its automaton accepts, when the
    predictions are right. *)
From Coq Require Import List ZArith Bool Lia.
From Verif Require Import Atn Spec_Atn Rdt_gen.
Import ListNotations.
Open Scope list_scope.
Open Scope Z_scope.

(** The transitions of the parser's automaton by state. *)
Definition table : list (list edge) := Eval vm_compute in map (out parser_atn) (seq 0 95).
Definition isstop (q : nat) : bool := existsb (Nat.eqb q) [1; 3; 5; 7; 9; 11; 13; 15; 17]%nat.

Lemma out_table q : out parser_atn q = nth q table [].
Proof.
  destruct (Nat.lt_ge_cases q 95) as [L|L].
  - assert (E : table = map (out parser_atn) (seq 0 95)) by (vm_compute; reflexivity). rewrite E.
    rewrite (nth_indep _ [] (out parser_atn 0)) by (rewrite map_length, seq_length; exact L).
    rewrite map_nth. now rewrite seq_nth.
  - rewrite nth_overflow by (replace (List.length table) with 95%nat by (vm_compute; reflexivity); exact L).
    unfold out. assert (E : forallb (fun e => Nat.ltb (e_from e) 95) (at_edges parser_atn) = true) by (vm_compute; reflexivity).
    rewrite forallb_forall in E. destruct (filter _ _) as [|e l] eqn:F; [reflexivity|].
    assert (J : In e (filter (fun e => Nat.eqb (e_from e) q) (at_edges parser_atn))) by (rewrite F; now left).
    apply filter_In in J. destruct J as [J Q]. apply E, Nat.ltb_lt in J. apply Nat.eqb_eq in Q. lia.
Qed.
Lemma stop_table q r : stop parser_atn q r -> isstop q = true.
Proof.
  unfold stop. intros H.
  assert (E : forallb (fun p => orb (negb (fst (snd p) =? 7)) (isstop (fst p))) (combine (seq 0 95) (at_states parser_atn)) = true) by (vm_compute; reflexivity).
  rewrite forallb_forall in E.
  assert (L : (q < 95)%nat).
  { replace 95%nat with (List.length (at_states parser_atn)) by (vm_compute; reflexivity). apply nth_error_Some. congruence. }
  assert (J : In (q, (7, r)) (combine (seq 0 95) (at_states parser_atn))).
  { assert (G : forall l s k, nth_error l k = Some (7, r) -> In ((s + k)%nat, (7, r)) (combine (seq s (List.length l)) l)).
    { induction l as [|x l IH]; intros s k K; [destruct k; discriminate|]. destruct k as [|k]; simpl in *.
      - left. injection K as ->. now rewrite Nat.add_0_r.
      - right. replace (s + S k)%nat with (S s + k)%nat by lia. now apply IH. }
    specialize (G (at_states parser_atn) 0%nat q H). exact G. }
  apply E in J. simpl in J. exact J.
Qed.
Lemma table_stop q : isstop q = true -> exists r, stop parser_atn q r.
Proof.
  unfold isstop. intros H. apply existsb_exists in H. destruct H as (x & J & E). apply Nat.eqb_eq in E. subst x. unfold stop.
  repeat (destruct J as [<-|J]; [eexists; vm_compute; reflexivity|]). destruct J.
Qed.

Fixpoint inr (c : Z) (l : list (Z * Z)) : Prop := match l with [] => False | (a, b) :: r => a <= c <= b \/ inr c r end.
Lemma inr_iff c l : in_ranges c l <-> inr c l.
Proof.
  unfold in_ranges. induction l as [|[a b] l IH]; simpl; split.
  - intros (x & y & [] & _).
  - tauto.
  - intros (x & y & [Q|J] & B); [injection Q as -> ->; auto|]. right. apply IH. eauto.
  - intros [B|H]; [exists a, b; auto|]. apply IH in H. destruct H as (x & y & J & B). exists x, y. auto.
Qed.

Section Auto.
Variable A : atn.
Variable tab : list (list edge).
Hypothesis Htab : forall q, out A q = nth q tab [].
Hypothesis Hstop : forall q r, stop A q r -> isstop q = true.

Notation F := (follows A).

Fixpoint any (l : list edge) (st : list nat) (ts : list Z) : Prop :=
  match l with
  | [] => False
  | e :: l' =>
      match e_label e with
      | LEps => F (e_to e) st ts
      | LIn rs => exists c r, ts = c :: r /\ inr c rs /\ F (e_to e) st r
      | LCall i => F i (e_to e :: st) ts
      | LAct _ => False
      end \/ any l' st ts
  end.
Lemma any_in e l st ts : In e l ->
  match e_label e with
  | LEps => F (e_to e) st ts
  | LIn rs => exists c r, ts = c :: r /\ inr c rs /\ F (e_to e) st r
  | LCall i => F i (e_to e :: st) ts
  | LAct _ => False
  end -> any l st ts.
Proof. induction l as [|x l IH]; simpl; [tauto|]. intros [->|J] H; auto. Qed.

Lemma fo_t q st ts : F q st ts ->
  (if isstop q then (st = [] /\ ts = []) \/ (exists t st', st = t :: st' /\ F t st' ts) else False) \/ any (nth q tab []) st ts.
Proof.
  intros H. rewrite <- Htab. inversion H as [? r S|? t ? ? J G|? l t ? c ? J I G|? i t ? ? J G|? r t ? ? S G]; subst.
  - left. rewrite (Hstop _ _ S). auto.
  - right. eapply any_in; [exact J|]. exact G.
  - right. eapply any_in; [exact J|]. simpl. exists c, ts0. split; [reflexivity|]. split; [now apply inr_iff|exact G].
  - right. eapply any_in; [exact J|]. exact G.
  - left. rewrite (Hstop _ _ S). right. eauto.
Qed.
End Auto.

(** * With the concrete transitions *)
Section Complete.
Variable A : atn.
Hypothesis Htab : forall q, out A q = nth q table [].
Hypothesis Hstop : forall q r, stop A q r -> isstop q = true.
Notation F := (follows A).

Ltac fo H :=
  apply (fo_t A table Htab Hstop) in H;
  match type of H with
  | context [any _ (nth ?q table []) _ _] =>
      let x := eval vm_compute in (nth q table []) in
      let b := eval vm_compute in (isstop q) in
      let E := fresh in let E' := fresh in
      assert (E : nth q table [] = x) by (vm_compute; reflexivity);
      assert (E' : isstop q = b) by (vm_compute; reflexivity);
      rewrite E, E' in H; clear E E'
  end;
  cbn [any e_label e_to inr] in H.
Ltac parts H :=
  lazymatch type of H with
  | False => destruct H
  | _ \/ _ => destruct H as [H|H]; parts H
  | _ => idtac
  end.
Ltac st H := fo H; parts H.

Lemma f_ret q t s ts : isstop q = true -> nth q table [] = [] -> F q (t :: s) ts -> F t s ts.
Proof.
  intros S E H. apply (fo_t A table Htab Hstop) in H. rewrite S, E in H. destruct H as [[[Q _]|(t' & s' & Q & H)]|[]]; [discriminate|].
  injection Q as <- <-. exact H.
Qed.

Lemma f6 t s ts : F 6 (t :: s) ts -> exists c r, ts = c :: r /\ 7 <= c <= 20 /\ F t s r.
Proof.
  intros H. st H. st H. destruct H as (c & r & -> & [B|[]] & H). st H. apply f_ret in H; [|reflexivity|reflexivity]. eauto.
Qed.
Lemma f16 t s ts : F 16 (t :: s) ts -> exists r, ts = 21 :: r /\ (F t s r \/ exists r', r = 6 :: 21 :: r' /\ F t s r').
Proof.
  intros H. st H. st H. destruct H as (c & r & -> & [B|[]] & H). replace c with 21 by lia. exists r. split; [reflexivity|]. st H.
  - right. st H. destruct H as (d & r' & -> & [B'|[]] & H). st H. destruct H as (e & r2 & -> & [B2|[]] & H). st H.
    apply f_ret in H; [|reflexivity|reflexivity]. exists r2. split; [|exact H]. f_equal; [lia|]. f_equal. lia.
  - left. st H. apply f_ret in H; [|reflexivity|reflexivity]. exact H.
Qed.
Lemma f14 s ts : F 14 s ts -> exists r, ts = 1 :: r /\ F 77 s r.
Proof. intros H. st H. st H. destruct H as (c & r & -> & [B|[]] & H). replace c with 1 by lia. eauto. Qed.

Definition ops (ret : nat) (s : list nat) (ts : list Z) : Prop := F 6 (ret :: s) ts \/ F 14 (ret :: s) ts \/ F 16 (ret :: s) ts.
Lemma f37 s ts : F 37 s ts -> ops 38 s ts.
Proof. intros H. unfold ops. st H; st H; auto. Qed.
Lemma f44 s ts : F 44 s ts -> ops 45 s ts.
Proof. intros H. unfold ops. st H; st H; auto. Qed.
Definition starter (c : Z) : Prop := 7 <= c <= 20 \/ c = 1 \/ c = 21.
Lemma ops_start ret s c ts : ops ret s (c :: ts) -> starter c.
Proof.
  intros [H|[H|H]]; unfold starter.
  - apply f6 in H. destruct H as (d & r & Q & B & _). injection Q as -> ->. auto.
  - apply f14 in H. destruct H as (r & Q & _). injection Q as -> ->. auto.
  - apply f16 in H. destruct H as (r & Q & _). injection Q as -> ->. auto.
Qed.
Lemma f4_start s c ts : F 4 s (c :: ts) -> starter c.
Proof.
  intros H. st H. st H; st H.
  - apply (ops_start 31 s c ts). left. exact H.
  - apply (ops_start 31 s c ts). right. left. exact H.
  - apply (ops_start 31 s c ts). right. right. exact H.
  - st H. apply f44 in H. apply ops_start in H. exact H.
  - st H. apply f37 in H. apply ops_start in H. exact H.
Qed.
Lemma f2_start s c ts : F 2 s (c :: ts) -> starter c.
Proof.
  intros H. st H. st H; st H.
  - apply f4_start in H. exact H.
  - st H. st H. apply f4_start in H. exact H.
Qed.
Lemma ws_no_starter : ~ starter 22.
Proof. unfold starter. lia. Qed.

Lemma types_cons l c ts : types l = c :: ts -> (l = [] /\ c = -1 /\ ts = []) \/ exists w l', l = (c, w) :: l' /\ ts = types l'.
Proof.
  destruct l as [|[k w] l]; simpl; intros H.
  - injection H as <- <-. auto.
  - injection H as <- <-. right. exists w, l. auto.
Qed.
Lemma match_ok l k ts : types l = k :: ts -> k <> -1 -> exists w l', l = (k, w) :: l' /\ match_ k l = Ok (Leaf (k, w)) l' /\ ts = types l'.
Proof.
  intros H K. apply types_cons in H. destruct H as [(_ & Q & _)|(w & l' & -> & ->)]; [congruence|]. exists w, l'.
  split; [reflexivity|]. split; [|reflexivity]. simpl. now rewrite Z.eqb_refl.
Qed.

Lemma spaces_ok q qx s : (forall ts, F q s ts -> (exists r, ts = 22 :: r /\ F q s r) \/ F qx s ts) -> (forall ts, ~ F qx s (22 :: ts)) ->
  forall l, F q s (types l) -> F qx s (types (snd (spaces l))) /\ (List.length (snd (spaces l)) <= List.length l)%nat.
Proof.
  intros Q N l. induction l as [|[k w] l IH]; intros H.
  - destruct (Q _ H) as [(r & E & _)|H']; [discriminate|]. auto.
  - simpl. destruct (Z.eqb_spec k 22) as [->|K].
    + destruct (Q _ H) as [(r & E & H')|H'].
      * change (types ((22, w) :: l)) with (22 :: types l) in E. injection E as <-. destruct (IH H') as [G L]. destruct (spaces l). simpl in *. split; [exact G|lia].
      * now apply N in H'.
    + destruct (Q _ H) as [(r & E & H')|H'].
      * change (types ((k, w) :: l)) with (k :: types l) in E. injection E as -> _. congruence.
      * auto.
Qed.
Lemma sp77 s l : F 77 s (types l) -> F 80 s (types (snd (spaces l))) /\ (List.length (snd (spaces l)) <= List.length l)%nat.
Proof.
  apply spaces_ok.
  - intros ts H. st H.
    + left. st H. st H. destruct H as (c & r & -> & [B|[]] & H). st H. st H. replace c with 22 by lia. eauto.
    + right. st H. exact H.
  - intros ts H. st H. apply f2_start in H. now apply ws_no_starter.
Qed.
Lemma sp84 s l : F 84 s (types l) -> F 87 s (types (snd (spaces l))) /\ (List.length (snd (spaces l)) <= List.length l)%nat.
Proof.
  apply spaces_ok.
  - intros ts H. st H.
    + left. st H. st H. destruct H as (c & r & -> & [B|[]] & H). st H. st H. replace c with 22 by lia. eauto.
    + right. st H. exact H.
  - intros ts H. st H. destruct H as (c & r & Q & [B|[]] & _). injection Q as <- _. lia.
Qed.
Lemma sp52 s l : F 52 s (types l) -> F 69 s (types (snd (spaces l))) /\ (List.length (snd (spaces l)) <= List.length l)%nat.
Proof.
  apply spaces_ok.
  - intros ts H. st H.
    + left. st H. st H. destruct H as (c & r & -> & [B|[]] & H). st H. st H. replace c with 22 by lia. eauto.
    + right. st H. exact H.
  - intros ts H. st H. st H. destruct H as (c & r & Q & [B|[]] & _). injection Q as <- _. lia.
Qed.
Lemma sp59 s l : F 59 s (types l) -> F 62 s (types (snd (spaces l))) /\ (List.length (snd (spaces l)) <= List.length l)%nat.
Proof.
  apply spaces_ok.
  - intros ts H. st H.
    + left. st H. st H. destruct H as (c & r & -> & [B|[]] & H). st H. st H. replace c with 22 by lia. eauto.
    + right. st H. exact H.
  - intros ts H. st H. apply f4_start in H. now apply ws_no_starter.
Qed.

Definition runs {B} (m : res B) (t : nat) (s : list nat) (l : list token) : Prop :=
  exists k r, m = Ok k r /\ F t s (types r) /\ (List.length r < List.length l)%nat.

Lemma prim_ok t s l : F 6 (t :: s) (types l) -> runs (primitive l) t s l.
Proof.
  intros H. apply f6 in H. destruct H as (c & r & Q & B & H). apply types_cons in Q. destruct Q as [(_ & -> & _)|(w & l' & -> & ->)]; [lia|].
  exists (Node 3 [Leaf (c, w)]), l'. split; [|split; [exact H|simpl; lia]]. unfold primitive. cbn [la].
  assert (E : (Z.land c (Z.lnot 63) =? 0) && negb (Z.land (Z.shiftl 1 c) 2097024 =? 0) = true).
  { assert (C : c = 7 \/ c = 8 \/ c = 9 \/ c = 10 \/ c = 11 \/ c = 12 \/ c = 13 \/ c = 14 \/ c = 15 \/ c = 16 \/ c = 17 \/ c = 18 \/ c = 19 \/ c = 20) by lia.
    clear - C. repeat (destruct C as [-> |C]; [reflexivity|]). subst c. reflexivity. }
  rewrite E. reflexivity.
Qed.
Lemma ref_ok t s l : (forall ts, ~ F t s (6 :: ts)) -> F 16 (t :: s) (types l) -> runs (reference l) t s l.
Proof.
  intros N H. apply f16 in H. destruct H as (r & Q & H). unfold reference. apply match_ok in Q; [|discriminate].
  destruct Q as (w & l1 & -> & -> & ->). cbn [rthen]. destruct H as [H|(r' & Q & H)].
  - destruct (Z.eqb_spec (la l1) 6) as [E|E].
    + exfalso. destruct l1 as [|[k w1] l1]; simpl in E; [discriminate|]. subst k. exact (N _ H).
    + exists (Node 8 [Leaf (21, w)]), l1. split; [reflexivity|]. split; [exact H|simpl; lia].
  - apply match_ok in Q; [|discriminate]. destruct Q as (w1 & l2 & -> & E1 & Q). cbn [la]. rewrite Z.eqb_refl, E1. cbn [rthen].
    symmetry in Q. apply match_ok in Q; [|discriminate]. destruct Q as (w2 & l3 & -> & E2 & ->). rewrite E2. cbn [rthen].
    eexists _, l3. split; [reflexivity|]. split; [exact H|simpl; lia].
Qed.

Section Pred.
Variable pred : nat -> list nat -> list Z -> nat.
Hypothesis V0 : forall s ts, F 23 s ts -> (pred 0 s ts = 1%nat /\ F 21 s ts) \/ (pred 0 s ts = 2%nat /\ F 22 s ts).
Hypothesis V1 : forall s ts, F 30 s ts -> (pred 1 s ts = 1%nat /\ F 25 s ts) \/ (pred 1 s ts = 2%nat /\ F 26 s ts)
  \/ (pred 1 s ts = 3%nat /\ F 27 s ts) \/ (pred 1 s ts = 4%nat /\ F 28 s ts) \/ (pred 1 s ts = 5%nat /\ F 29 s ts).
Hypothesis V6 : forall s ts, F 66 s ts -> (pred 6 s ts = 1%nat /\ F 64 s ts) \/ (pred 6 s ts = 2%nat /\ F 67 s ts).

Section Rec.
Variable ex : list nat -> list token -> res ptree.
Variable bound : nat.
Hypothesis Hex : forall s l, (List.length l < bound)%nat -> F 2 (84%nat :: s) (types l) -> runs (ex (84%nat :: s) l) 84 s l.

Lemma group_ok t s l : (List.length l <= bound)%nat -> F 14 (t :: s) (types l) -> runs (group ex (t :: s) l) t s l.
Proof.
  intros L H. apply f14 in H. destruct H as (r & Q & H). unfold group. apply match_ok in Q; [|discriminate].
  destruct Q as (w & l1 & -> & -> & ->). cbn [rthen]. apply sp77 in H. destruct H as [H L1]. destruct (spaces l1) as [w1 l2]. cbn [snd] in *.
  simpl in L. st H. apply Hex in H; [|lia]. destruct H as (k & r & -> & H & L2). cbn [rthen].
  apply sp84 in H. destruct H as [H L3]. destruct (spaces r) as [w2 l3]. cbn [snd] in *. st H.
  destruct H as (c & r2 & Q & [B|[]] & H). replace c with 2 in Q by lia. apply match_ok in Q; [|discriminate].
  destruct Q as (w3 & l4 & -> & -> & ->). cbn [rthen]. st H. apply f_ret in H; [|reflexivity|reflexivity].
  eexists _, l4. split; [reflexivity|]. split; [exact H|]. simpl in *. lia.
Qed.

Lemma operand_ok ret s l : (List.length l <= bound)%nat -> (forall ts, ~ F ret s (6 :: ts)) -> ops ret s (types l) -> runs (operand ex ret s l) ret s l.
Proof.
  intros L N H. unfold operand. destruct H as [H|[H|H]].
  - pose proof (f6 _ _ _ H) as (c & r & Q & B & _). apply types_cons in Q. destruct Q as [(_ & -> & _)|(w & l' & -> & ->)]; [lia|]. cbn [la].
    assert (E : existsb (Z.eqb c) [7; 8; 9; 10; 11; 12; 13; 14; 15; 16; 17; 18; 19; 20] = true).
    { apply existsb_exists. exists c. split; [simpl; lia|apply Z.eqb_refl]. }
    rewrite E. now apply prim_ok.
  - pose proof (f14 _ _ H) as (r & Q & _). apply match_ok in Q; [|discriminate]. destruct Q as (w & l' & -> & _ & _). cbn [la].
    replace (existsb _ _) with false by reflexivity. replace (1 =? 1) with true by reflexivity. now apply group_ok.
  - pose proof (f16 _ _ _ H) as (r & Q & _). apply match_ok in Q; [|discriminate]. destruct Q as (w & l' & -> & _ & _). cbn [la].
    replace (existsb _ _) with false by reflexivity. replace (21 =? 1) with false by reflexivity. replace (21 =? 21) with true by reflexivity. now apply ref_ok.
Qed.

Lemma f31 t s ts : F 31 (t :: s) ts -> F t s ts.
Proof. intros H. st H. apply f_ret in H; [|reflexivity|reflexivity]. exact H. Qed.

Lemma type_ok t s l : (List.length l <= bound)%nat -> (forall ts, ~ F t s (6 :: ts)) -> F 4 (t :: s) (types l) -> runs (type_ pred ex (t :: s) l) t s l.
Proof.
  intros L N H. st H. unfold type_.
  assert (N31 : forall ts, ~ F 31 (t :: s) (6 :: ts)) by (intros ts K; apply f31 in K; exact (N _ K)).
  assert (G : forall m, runs m 31 (t :: s) l -> runs (rthen m (fun t l => Ok (Node 2 [t]) l)) t s l).
  { intros m (k & r & -> & K & L1). apply f31 in K. eexists _, r. split; [reflexivity|]. auto. }
  destruct (V1 _ _ H) as [[-> K]|[[-> K]|[[-> K]|[[-> K]|[-> K]]]]]; clear H; st K; apply G.
  - now apply prim_ok.
  - now apply group_ok.
  - now apply ref_ok.
  - st K. apply f44 in K. apply operand_ok in K; [|exact L|intros ts J; st J; st J; destruct J as (c & r & Q & [B|[]] & _); injection Q as <- _; lia].
    destruct K as (k & r & E & K & L1). unfold array. rewrite E. cbn [rthen]. st K. st K. destruct K as (c & r2 & Q & [B|[]] & K).
    replace c with 4 in Q by lia. apply match_ok in Q; [|discriminate]. destruct Q as (w & l' & -> & -> & ->). cbn [rthen]. st K.
    apply f_ret in K; [|reflexivity|reflexivity]. eexists _, l'. split; [reflexivity|]. split; [exact K|simpl in *; lia].
  - st K. apply f37 in K. apply operand_ok in K; [|exact L|intros ts J; st J; st J; destruct J as (c & r & Q & [B|[]] & _); injection Q as <- _; lia].
    destruct K as (k & r & E & K & L1). unfold optional. rewrite E. cbn [rthen]. st K. st K. destruct K as (c & r2 & Q & [B|[]] & K).
    replace c with 5 in Q by lia. apply match_ok in Q; [|discriminate]. destruct Q as (w & l' & -> & -> & ->). cbn [rthen]. st K.
    apply f_ret in K; [|reflexivity|reflexivity]. eexists _, l'. split; [reflexivity|]. split; [exact K|simpl in *; lia].
Qed.

Lemma trailing_ok n : forall s l, (List.length l < n)%nat -> F 66 s (types l) ->
  exists w r, trailing pred n s l = Ok w r /\ F 67 s (types r) /\ (List.length r <= List.length l)%nat.
Proof.
  induction n as [|n IH]; intros s l L H; [lia|]. cbn [trailing]. destruct (V6 _ _ H) as [[-> K]|[-> K]]; clear H.
  - st K. st K. destruct K as (c & r & Q & [B|[]] & K). replace c with 22 in Q by lia. apply match_ok in Q; [|discriminate].
    destruct Q as (w & l' & -> & -> & ->). cbn [rthen]. simpl in L. st K. st K. destruct (IH s l' ltac:(lia) K) as (ws & r & -> & K' & L').
    cbn [rthen]. eexists _, r. split; [reflexivity|]. split; [exact K'|simpl; lia].
  - eexists _, l. split; [reflexivity|]. split; [exact K|lia].
Qed.

Lemma members_ok n : forall s l, (List.length l < n)%nat -> (List.length l <= bound)%nat ->
  (forall c ts, c = 3 \/ c = 6 -> ~ F 13 s (c :: ts)) -> F 69 s (types l) -> runs (members pred ex n s l) 13 s l.
Proof.
  induction n as [|n IH]; intros s l L B N H; [lia|]. cbn [members]. st H. st H. destruct H as (c & r & Q & [C|[]] & H).
  replace c with 3 in Q by lia. apply match_ok in Q; [|discriminate]. destruct Q as (w & l1 & -> & -> & ->). cbn [rthen]. simpl in L, B.
  apply sp59 in H. destruct H as [H L1]. destruct (spaces l1) as [w1 l2]. cbn [snd] in *. st H.
  apply type_ok in H; [|lia|].
  2: { intros ts K. st K; st K.
       - st K. destruct K as (d & r & Q & [D|[]] & _). injection Q as <- _. lia.
       - st K. st K; st K.
         + st K. destruct K as (d & r & Q & [D|[]] & _). injection Q as <- _. lia.
         + revert K. apply N. auto. }
  destruct H as (t & l3 & -> & H & L2). cbn [rthen]. apply (trailing_ok (S n)) in H; [|lia]. destruct H as (w2 & l4 & E & H & L3).
  rewrite E. cbn [rthen]. st H. st H. st H.
  - pose proof H as H'. st H'. st H'. destruct H' as (d & r & Q & [D|[]] & _). replace d with 3 in Q by lia.
    apply match_ok in Q; [|discriminate]. destruct Q as (w3 & l5 & El & _ & _).
    assert (E3 : la l4 =? 3 = true) by (rewrite El; reflexivity). rewrite E3. apply IH in H; [|lia|lia|exact N].
    destruct H as (ms & l6 & -> & H & L4). cbn [rthen]. eexists _, l6. split; [reflexivity|]. split; [exact H|simpl; lia].
  - st H. destruct (Z.eqb_spec (la l4) 3) as [E3|E3].
    + exfalso. destruct l4 as [|[k w4] l4]; simpl in E3; [discriminate|]. subst k. revert H. apply N. auto.
    + eexists _, l4. split; [reflexivity|]. split; [exact H|simpl; lia].
Qed.

Lemma union_ok n t s l : (List.length l <= n)%nat -> (List.length l <= bound)%nat ->
  (forall c ts, c = 3 \/ c = 6 -> ~ F t s (c :: ts)) -> F 12 (t :: s) (types l) -> runs (union pred ex n (t :: s) l) t s l.
Proof.
  intros L B N H. st H. st H. unfold union. apply type_ok in H; [|exact B|].
  2: { intros ts K. st K; st K; st K; [|st K]; destruct K as (d & r & Q & [D|[]] & _); injection Q as <- _; lia. }
  destruct H as (k & r & -> & H & L1). cbn [rthen]. apply sp52 in H. destruct H as [H L2]. destruct (spaces r) as [w r1]. cbn [snd] in *.
  apply (members_ok n) in H; [|lia|lia|].
  2: { intros c ts C K. apply f_ret in K; [|reflexivity|reflexivity]. revert K. now apply N. }
  destruct H as (ms & r2 & -> & H & L3). cbn [rthen]. apply f_ret in H; [|reflexivity|reflexivity].
  eexists _, r2. split; [reflexivity|]. split; [exact H|lia].
Qed.
End Rec.

Lemma expression_ok n : forall t s l, t = 19%nat \/ t = 84%nat -> (List.length l < n)%nat -> F 2 (t :: s) (types l) ->
  runs (expression pred n (t :: s) l) t s l.
Proof.
  induction n as [|n IH]; intros t s l T L H; [lia|].
  assert (Hex : forall s l, (List.length l < n)%nat -> F 2 (84%nat :: s) (types l) -> runs (expression pred n (84%nat :: s) l) 84 s l) by (intros; apply IH; auto).
  cbn [expression].
  assert (N : forall c ts, c = 3 \/ c = 6 -> ~ F t s (c :: ts)).
  { intros c ts C K. destruct T as [-> | ->].
    - st K. destruct K as (d & r & Q & [D|[]] & _). injection Q as <- _. lia.
    - st K; st K; st K; destruct K as (d & r & Q & [D|[]] & _); injection Q as <- _; lia. }
  assert (N24 : forall c ts, c = 3 \/ c = 6 -> ~ F 24 (t :: s) (c :: ts)).
  { intros c ts C K. st K. apply f_ret in K; [|reflexivity|reflexivity]. revert K. now apply N. }
  assert (G : forall m, runs m 24 (t :: s) l -> runs (rthen m (fun t l => Ok (Node 1 [t]) l)) t s l).
  { intros m (k & r & -> & K & L1). st K. apply f_ret in K; [|reflexivity|reflexivity]. eexists _, r. split; [reflexivity|]. auto. }
  st H. destruct (V0 _ _ H) as [[-> K]|[-> K]]; clear H; st K; apply G.
  - apply (type_ok _ n Hex); [lia| |exact K]. intros ts. apply N24. auto.
  - apply (union_ok _ n Hex); [lia|lia|exact N24|exact K].
Qed.

Lemma entrypoint_ok n l : (List.length l < n)%nat -> F 0 [] (types l) -> exists t, entrypoint pred n l = Ok t [].
Proof.
  intros L H. st H. st H. unfold entrypoint. apply (expression_ok n) in H; [|auto|exact L]. destruct H as (k & r & -> & H & _). cbn [rthen].
  st H. destruct H as (c & r2 & Q & [B|[]] & H). apply types_cons in Q. destruct Q as [(-> & _ & ->)|(w & l' & -> & ->)].
  - simpl. eauto.
  - exfalso. st H. fo H. destruct H as [[[_ Q]|(t & s & Q & _)]|[]]; [|discriminate]. destruct l' as [|[k' w'] l']; discriminate.
Qed.
End Pred.
End Complete.
