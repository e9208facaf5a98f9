(** A predictor that answers with the first alternative that leads to the end of
    the input, and proofs about it: it shows that such predictors exist. *)
From Coq Require Import List ZArith Bool Lia.
From Verif Require Import Atn Spec_Atn.
Import ListNotations.
Open Scope list_scope.
Open Scope nat_scope.

Section Pick.
Variable A : atn.
Variable rho : list nat.
Definition rk (q : nat) : nat := nth q rho 0.

Definition is_stop (q : nat) : bool := match nth_error (at_states A) q with Some (k, _) => Z.eqb k 7 | None => false end.
Definition in_b (c : Z) (l : list (Z * Z)) : bool := existsb (fun p => (fst p <=? c)%Z && (c <=? snd p)%Z) l.
Lemma in_b_iff c l : in_b c l = true <-> in_ranges c l.
Proof.
  unfold in_b, in_ranges. rewrite existsb_exists. split.
  - intros ([a b] & J & H). exists a, b. simpl in H. apply andb_prop in H. split; [exact J|lia].
  - intros (a & b & J & H). exists (a, b). split; [exact J|]. simpl. apply andb_true_intro. lia.
Qed.
Lemma stop_iff q : is_stop q = true <-> exists r, stop A q r.
Proof.
  unfold is_stop, stop. destruct (nth_error (at_states A) q) as [[k r]|]; split; try discriminate.
  - intros H. apply Z.eqb_eq in H. subst. eauto.
  - intros (r' & H). injection H as -> ->. reflexivity.
  - intros (r' & H). discriminate.
Qed.

Fixpoint anyb (f : edge -> bool) (l : list edge) : bool :=
  match l with [] => false | e :: l' => if f e then true else anyb f l' end.
Lemma anyb_is f l : anyb f l = existsb f l.
Proof. induction l as [|e l IH]; simpl; [reflexivity|]. rewrite IH. reflexivity. Qed.

Fixpoint fb (n : nat) (q : nat) (s : list nat) (ts : list Z) : bool :=
  match n with
  | O => false
  | S n' =>
      if (if is_stop q then match s with [] => match ts with [] => true | _ => false end | t :: s' => fb n' t s' ts end else false)
      then true
      else anyb (fun e =>
           match e_label e with
           | LEps => fb n' (e_to e) s ts
           | LIn l => match ts with c :: r => if in_b c l then fb n' (e_to e) s r else false | [] => false end
           | LCall i => fb n' i (e_to e :: s) ts
           | LAct _ => false
           end) (out A q)
  end.

Lemma out_from e q : In e (out A q) -> e = Edge q (e_label e) (e_to e).
Proof. unfold out. intros H. apply filter_In in H. destruct H as [_ E]. apply Nat.eqb_eq in E. destruct e. simpl in *. now subst. Qed.

Lemma fb_sound n : forall q s ts, fb n q s ts = true -> follows A q s ts.
Proof.
  induction n as [|n IH]; intros q s ts; [discriminate|]. cbn [fb]. rewrite anyb_is. intros H.
  match type of H with (if ?x then true else ?y) = true => change (x || y = true) in H end. apply orb_prop in H. destruct H as [H|H].
  - destruct (is_stop q) eqn:S; [|discriminate]. apply stop_iff in S. destruct S as [r S]. destruct s as [|t s].
    + destruct ts; [|discriminate]. econstructor; exact S.
    + eapply fo_ret; [exact S|]. auto.
  - apply existsb_exists in H. destruct H as (e & J & H). pose proof (out_from _ _ J) as Q. rewrite Q in J. destruct (e_label e) as [|l|i|i].
    + eapply fo_eps; [exact J|]. auto.
    + destruct ts as [|c ts]; [discriminate|]. destruct (in_b c l) eqn:B; [|discriminate]. apply in_b_iff in B. eapply fo_in; [exact J|exact B|auto].
    + discriminate.
    + eapply fo_call; [exact J|]. auto.
Qed.

Variable K : nat.
Definition ranked : bool :=
  forallb (fun e => match e_label e with
                    | LEps => rk (e_to e) <? rk (e_from e)
                    | LIn _ => rk (e_to e) <? K
                    | LCall i => rk i + rk (e_to e) <? rk (e_from e)
                    | LAct _ => true
                    end) (at_edges A)
  && forallb (fun q => negb (is_stop q) || (0 <? rk q)) (seq 0 (List.length (at_states A))).
Hypothesis Hrk : ranked = true.
Definition phi (q : nat) (s : list nat) (ts : list Z) : nat := rk q + fold_right (fun t k => rk t + k) 0 s + K * List.length ts.

Lemma rk_edge e q : In e (out A q) -> match e_label e with
  | LEps => rk (e_to e) < rk q | LIn _ => rk (e_to e) < K | LCall i => rk i + rk (e_to e) < rk q | LAct _ => True end.
Proof.
  intros J. unfold out in J. apply filter_In in J. destruct J as [J E]. apply Nat.eqb_eq in E.
  unfold ranked in Hrk. apply andb_prop in Hrk. destruct Hrk as [H _]. rewrite forallb_forall in H. apply H in J. rewrite <- E.
  destruct (e_label e); try apply Nat.ltb_lt in J; auto.
Qed.
Lemma rk_stop q r : stop A q r -> 0 < rk q.
Proof.
  intros S. unfold ranked in Hrk. apply andb_prop in Hrk. destruct Hrk as [_ H]. rewrite forallb_forall in H.
  assert (J : In q (seq 0 (List.length (at_states A)))).
  { apply in_seq. split; [lia|]. apply nth_error_Some. unfold stop in S. congruence. }
  apply H in J. assert (T : is_stop q = true) by (apply stop_iff; eauto). rewrite T in J. simpl in J. now apply Nat.ltb_lt in J.
Qed.

Lemma fb_complete q s ts : follows A q s ts -> forall n, phi q s ts < n -> fb n q s ts = true.
Proof.
  unfold phi. induction 1 as [q r S|q t s ts J H IH|q l t s c ts J I H IH|q i t s ts J H IH|q r t s ts S H IH]; intros n L; (destruct n as [|n]; [lia|]); cbn [fb]; rewrite anyb_is; match goal with |- (if ?x then true else ?y) = true => change (x || y = true) end.
  - assert (T : is_stop q = true) by (apply stop_iff; eauto). rewrite T. reflexivity.
  - apply orb_true_intro. right. apply existsb_exists. exists (Edge q LEps t). split; [exact J|]. simpl. apply IH. apply rk_edge in J. simpl in J. lia.
  - apply orb_true_intro. right. apply existsb_exists. exists (Edge q (LIn l) t). split; [exact J|]. simpl. apply in_b_iff in I. rewrite I. simpl.
    apply IH. apply rk_edge in J. simpl in J, L. lia.
  - apply orb_true_intro. right. apply existsb_exists. exists (Edge q (LCall i) t). split; [exact J|]. simpl. apply IH. apply rk_edge in J. simpl in *. lia.
  - apply orb_true_intro. left. assert (T : is_stop q = true) by (apply stop_iff; eauto). rewrite T. simpl. apply IH. apply rk_stop in S. simpl in L. lia.
Qed.
Definition accepts (q : nat) (s : list nat) (ts : list Z) : bool := fb (S (phi q s ts)) q s ts.
Lemma accepts_iff q s ts : accepts q s ts = true <-> follows A q s ts.
Proof. unfold accepts. split; [apply fb_sound|]. intros H. apply fb_complete; [exact H|lia]. Qed.

Fixpoint first (l : list edge) (s : list nat) (ts : list Z) : nat :=
  match l with
  | [] => 0
  | e :: l' => if accepts (e_to e) s ts then 1 else match first l' s ts with O => O | S k => S (S k) end
  end.
Definition pick (d : nat) (s : list nat) (ts : list Z) : nat :=
  match nth_error (at_decisions A) d with Some q => first (out A q) s ts | None => 0 end.

Lemma first_le l s ts : first l s ts <= List.length l.
Proof. induction l as [|e l IH]; simpl; [lia|]. destruct (accepts _ _ _); [lia|]. destruct (first l s ts); lia. Qed.
Lemma first_viable l s ts : (exists e, In e l /\ follows A (e_to e) s ts) ->
  exists i e, first l s ts = S i /\ nth_error l i = Some e /\ follows A (e_to e) s ts.
Proof.
  induction l as [|x l IH]; intros (e & J & H); [destruct J|]. simpl. destruct (accepts (e_to x) s ts) eqn:E.
  - apply accepts_iff in E. exists 0, x. auto.
  - destruct J as [->|J]; [apply accepts_iff in H; congruence|]. destruct IH as (i & e' & -> & N & H'); [eauto|]. exists (S i), e'. auto.
Qed.
Lemma pick_sane : sane A pick.
Proof. intros d q s ts H. unfold pick. rewrite H. apply first_le. Qed.
Lemma pick_viable : viable A pick.
Proof. intros d q s ts H X. unfold pick. rewrite H. now apply first_viable. Qed.
End Pick.

(** The ranks of the parser's automaton: more than the ranks of all that comes
    without reading a token. *)
Fixpoint rank (n : nat) (q : nat) : nat :=
  match n with
  | O => 0
  | S n' => S (fold_right (fun e k => Nat.max k match e_label e with
                                                | LEps => rank n' (e_to e)
                                                | LIn _ => 0
                                                | LCall i => rank n' i + rank n' (e_to e)
                                                | LAct _ => 0
                                                end) 0 (out parser_atn q))
  end.
Definition ranks : list nat := Eval vm_compute in map (rank 40) (seq 0 95).
Definition top_rank : nat := Eval vm_compute in S (fold_right Nat.max 0 ranks).
Lemma parser_ranked : ranked parser_atn ranks top_rank = true.
Proof. vm_compute. reflexivity. Qed.
