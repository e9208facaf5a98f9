(** Proofs: what the automaton of the lexer matches. *)
From Coq Require Import List ZArith Bool Lia String Ascii Arith.
From Verif Require Import Atn Rdt Spec_Rdt Rdt_proofs.
Import ListNotations.
Open Scope list_scope.
Open Scope Z_scope.

(** * Any automaton *)
Section Any.
Variable A : atn.

Lemma reads_inv q w acts q' : reads A q w acts q' ->
  (w = [] /\ acts = [] /\ q' = q)
  \/ exists e, In e (out A q) /\
     match e_label e with
     | LEps => reads A (e_to e) w acts q'
     | LIn l => exists c w', w = c :: w' /\ in_ranges c l /\ reads A (e_to e) w' acts q'
     | LAct i => exists acts', acts = i :: acts' /\ reads A (e_to e) w acts' q'
     | LCall _ => False
     end.
Proof.
  intros H. destruct H as [q|q t w acts q' J H|q l t c w acts q' J C H|q i t w acts q' J H]; [left; auto| | |]; right.
  - exists (Edge q LEps t). auto.
  - exists (Edge q (LIn l) t). split; [exact J|]. exists c, w. auto.
  - exists (Edge q (LAct i) t). split; [exact J|]. exists acts. auto.
Qed.

(** ** Rules that are one text *)
Fixpoint chain (k q : nat) : option (list Z * nat) :=
  match k with
  | O => None
  | S k' =>
      match out A q with
      | [] => match nth_error (at_states A) q with Some (7, _) => Some ([], q) | _ => None end
      | [e] =>
          match nth_error (at_states A) q with
          | Some (7, _) => None
          | _ =>
              match e_label e with
              | LEps => chain k' (e_to e)
              | LIn [(a, b)] => if a =? b then match chain k' (e_to e) with Some (w, s) => Some (a :: w, s) | None => None end else None
              | _ => None
              end
          end
      | _ => None
      end
  end.

Lemma in_out e q : In e (out A q) -> e = Edge q (e_label e) (e_to e).
Proof. unfold out. rewrite filter_In. intros [_ H]. apply Nat.eqb_eq in H. destruct e as [f l t]. simpl in *. now subst. Qed.

Lemma chain_ok k : forall q w0 s, chain k q = Some (w0, s) ->
  (exists r, stop A s r) /\ reads A q w0 [] s
  /\ forall w acts q' r, reads A q w acts q' -> stop A q' r -> w = w0 /\ acts = [] /\ q' = s.
Proof.
  induction k as [|k IH]; intros q w0 s H; [discriminate|]. cbn [chain] in H.
  destruct (out A q) as [|e [|e' l]] eqn:O; [| |discriminate].
  - destruct (nth_error (at_states A) q) as [[t r]|] eqn:N; [|discriminate].
    destruct (Z.eq_dec t 7) as [->|Nt].
    + injection H as <- <-. split; [exists r; exact N|]. split; [constructor|]. intros w acts q' r' R S.
      apply reads_inv in R. destruct R as [(-> & -> & ->)|(e & J & _)]; [auto|]. rewrite O in J. destruct J.
    + destruct t as [|p|p]; try discriminate. destruct p as [[[]|[]|]|[[]|[]|]|]; try discriminate. now elim Nt.
  - assert (J : In e (out A q)) by (rewrite O; left; reflexivity). pose proof (in_out e q J) as Q.
    assert (Ns : forall r, ~ stop A q r).
    { intros r S. unfold stop in S. rewrite S in H. discriminate. }
    assert (K : match e_label e with
                | LEps => chain k (e_to e)
                | LIn [(a, b)] => if a =? b then match chain k (e_to e) with Some (w, s) => Some (a :: w, s) | None => None end else None
                | _ => None
                end = Some (w0, s)).
    { destruct (nth_error (at_states A) q) as [[t r]|]; [|exact H]. destruct t as [|p|p]; try exact H.
      destruct p as [[[]|[]|]|[[]|[]|]|]; try exact H. discriminate. }
    clear H. destruct (e_label e) as [|ranges|i|c] eqn:L; try discriminate.
    + destruct (IH _ _ _ K) as (S & R & U). split; [exact S|]. split.
      * eapply rd_eps; [|exact R]. rewrite <- Q. exact J.
      * intros w acts q' r' R' S'. apply reads_inv in R'. destruct R' as [(-> & -> & ->)|(e' & J' & R')]; [now elim (Ns r')|].
        rewrite O in J'. destruct J' as [<-|[]]. rewrite L in R'. exact (U _ _ _ _ R' S').
    + destruct ranges as [|[a b] [|]]; try discriminate. destruct (Z.eqb_spec a b) as [<-|]; [|discriminate].
      destruct (chain k (e_to e)) as [[w1 s1]|] eqn:C; [|discriminate]. injection K as <- <-. destruct (IH _ _ _ C) as (S & R & U).
      split; [exact S|]. split.
      * eapply rd_in; [rewrite <- Q; exact J| |exact R]. exists a, a. split; [left; reflexivity|lia].
      * intros w acts q' r' R' S'. apply reads_inv in R'. destruct R' as [(-> & -> & ->)|(e' & J' & R')]; [now elim (Ns r')|].
        rewrite O in J'. destruct J' as [<-|[]]. rewrite L in R'. destruct R' as (c & w' & -> & (a' & b' & [X|[]] & B) & R').
        injection X as -> ->. destruct (U _ _ _ _ R' S') as (-> & -> & ->). split; [f_equal; lia|auto].
Qed.

Lemma out_in q l t : In (Edge q l t) (at_edges A) -> In (Edge q l t) (out A q).
Proof. intros H. apply filter_In. split; [exact H|]. simpl. apply Nat.eqb_refl. Qed.

(** ** IDENTIFIER and WS *)
Definition idr : list (Z * Z) := [(45, 46); (48, 57); (65, 90); (95, 95); (97, 122)].
Definition wsr : list (Z * Z) := [(9, 9); (32, 32)].

(** What is read from a state of IDENTIFIER up to the end of the rule. *)
Definition ident_at (w : list Z) (acts : list nat) (q' : nat) (q : nat) : Prop :=
  (q = 42%nat \/ q = 167%nat -> w = [] /\ acts = [] /\ q' = 42%nat)
  /\ (q = 166%nat \/ q = 165%nat -> Forall (fun c => in_ranges c idr) w /\ acts = [] /\ q' = 42%nat)
  /\ (q = 163%nat \/ q = 164%nat \/ q = 41%nat -> w <> [] /\ Forall (fun c => in_ranges c idr) w /\ acts = [] /\ q' = 42%nat).
Definition ws_at (w : list Z) (acts : list nat) (q' : nat) (q : nat) : Prop :=
  (q = 44%nat \/ q = 171%nat -> w = [] /\ acts = [] /\ q' = 44%nat)
  /\ (q = 170%nat \/ q = 169%nat -> w = [] /\ acts = [0%nat] /\ q' = 44%nat)
  /\ (q = 168%nat \/ q = 43%nat -> (exists c, w = [c] /\ in_ranges c wsr) /\ acts = [0%nat] /\ q' = 44%nat).

(** The transitions of the two rules. *)
Hypothesis O41 : out A 41 = [Edge 41 LEps 164].
Hypothesis O42 : out A 42 = [].
Hypothesis O43 : out A 43 = [Edge 43 LEps 168].
Hypothesis O44 : out A 44 = [].
Hypothesis O163 : out A 163 = [Edge 163 (LIn idr) 165].
Hypothesis O164 : out A 164 = [Edge 164 LEps 163].
Hypothesis O165 : out A 165 = [Edge 165 LEps 166].
Hypothesis O166 : out A 166 = [Edge 166 LEps 164; Edge 166 LEps 167].
Hypothesis O167 : out A 167 = [Edge 167 LEps 42].
Hypothesis O168 : out A 168 = [Edge 168 (LIn wsr) 169].
Hypothesis O169 : out A 169 = [Edge 169 LEps 170].
Hypothesis O170 : out A 170 = [Edge 170 (LAct 0) 171].
Hypothesis O171 : out A 171 = [Edge 171 LEps 44].
Hypothesis S_no : forall q r, In q [41; 43; 163; 164; 165; 166; 167; 168; 169; 170; 171]%nat -> ~ stop A q r.

Ltac outs := match goal with J : In _ (out A _) |- _ =>
  rewrite ?O41, ?O42, ?O43, ?O44, ?O163, ?O164, ?O165, ?O166, ?O167, ?O168, ?O169, ?O170, ?O171 in J;
  cbn [In] in J; repeat destruct J as [J|J]; try discriminate J; try (now destruct J) end.
Ltac states := repeat match goal with K : _ \/ _ |- _ => destruct K as [K|K] end; subst.
Ltac nostop := match goal with S : stop A ?q ?r |- _ => exfalso; refine (S_no q r _ S); cbn [In]; tauto end.

Lemma ident_reads q w acts q' r : reads A q w acts q' -> stop A q' r -> ident_at w acts q' q.
Proof.
  intros H S. induction H as [q|q t w acts q' J H IH|q l t c w acts q' J C H IH|q i t w acts q' J H IH].
  - split; [|split]; intros K; states; auto; nostop.
  - specialize (IH S). destruct IH as (I1 & I2 & I3).
    split; [|split]; intros K; states; outs; injection J as <-; auto.
    + destruct I3 as (_ & X); auto.
    + destruct I1 as (-> & X & Y); auto.
  - specialize (IH S). destruct IH as (I1 & I2 & I3).
    split; [|split]; intros K; states; outs. injection J as <- <-. destruct I2 as (X & Y & Z0); [auto|]. split; [discriminate|]. auto.
  - split; [|split]; intros K; states; outs.
Qed.
Lemma ws_reads q w acts q' r : reads A q w acts q' -> stop A q' r -> ws_at w acts q' q.
Proof.
  intros H S. induction H as [q|q t w acts q' J H IH|q l t c w acts q' J C H IH|q i t w acts q' J H IH].
  - split; [|split]; intros K; states; auto; nostop.
  - specialize (IH S). destruct IH as (I1 & I2 & I3).
    split; [|split]; intros K; states; outs; injection J as <-; auto.
  - specialize (IH S). destruct IH as (I1 & I2 & I3).
    split; [|split]; intros K; states; outs. injection J as <- <-. destruct I2 as (-> & Y & Z0); [auto|]. split; [exists c; auto|]. auto.
  - specialize (IH S). destruct IH as (I1 & I2 & I3).
    split; [|split]; intros K; states; outs. injection J as <- <-. destruct I1 as (-> & -> & ->); auto.
Qed.

Ltac edge := rewrite ?O41, ?O43, ?O163, ?O164, ?O165, ?O166, ?O167, ?O168, ?O169, ?O170, ?O171; cbn [In]; tauto.

Lemma ident_loop c w : Forall (fun c => in_ranges c idr) w -> in_ranges c idr -> reads A 41 (c :: w) [] 42.
Proof.
  intros H C.
  assert (G : forall w, Forall (fun c => in_ranges c idr) w -> reads A 166 w [] 42).
  { clear H C c w. intros w. induction w as [|c w IH]; intros H.
    - apply (rd_eps A 166 167); [edge|]. apply (rd_eps A 167 42); [edge|]. constructor.
    - inversion H as [|? ? C F]; subst. apply (rd_eps A 166 164); [edge|]. apply (rd_eps A 164 163); [edge|].
      apply (rd_in A 163 idr 165); [edge|exact C|]. apply (rd_eps A 165 166); [edge|]. auto. }
  apply (rd_eps A 41 164); [edge|]. apply (rd_eps A 164 163); [edge|].
  apply (rd_in A 163 idr 165); [edge|exact C|]. apply (rd_eps A 165 166); [edge|]. auto.
Qed.
Lemma ws_one c : in_ranges c wsr -> reads A 43 [c] [0%nat] 44.
Proof.
  intros C. apply (rd_eps A 43 168); [edge|]. apply (rd_in A 168 wsr 169); [edge|exact C|]. apply (rd_eps A 169 170); [edge|].
  apply (rd_act A 170 0 171); [edge|]. apply (rd_eps A 171 44); [edge|]. constructor.
Qed.

(** ** What each alternative matches *)
Variable texts : list (list Z).
Definition means (k : nat) (w : list Z) (acts : list nat) (typ : Z) : Prop :=
  (exists t, nth_error texts k = Some t /\ w = t /\ acts = [] /\ typ = Z.of_nat k + 1)
  \/ (k = 20%nat /\ w <> [] /\ Forall (fun c => in_ranges c idr) w /\ acts = [] /\ typ = 21)
  \/ (k = 21%nat /\ (exists c, w = [c] /\ in_ranges c wsr) /\ acts = [0%nat] /\ typ = 22).

Hypothesis Hmode : at_modes A = [0%nat].
Hypothesis Htexts : List.length texts = 20%nat.
Hypothesis Hout : List.length (out A 0) = 22%nat.
Hypothesis H20 : forall k, (k < 20)%nat -> exists e t q r s, nth_error (out A 0) k = Some e /\ e_label e = LEps
  /\ nth_error texts k = Some t /\ chain 20 (e_to e) = Some (t, q)
  /\ stop A q r /\ nth_error (at_rules A) (Z.to_nat r) = Some (s, Z.of_nat k + 1).
Hypothesis Hid : nth_error (out A 0) 20 = Some (Edge 0 LEps 41) /\ stop A 42 20 /\ nth_error (at_rules A) 20 = Some (41%nat, 21).
Hypothesis Hws : nth_error (out A 0) 21 = Some (Edge 0 LEps 43) /\ stop A 44 21 /\ nth_error (at_rules A) 21 = Some (43%nat, 22).

Lemma stop_one q r r' : stop A q r -> stop A q r' -> r = r'.
Proof. unfold stop. intros H K. rewrite H in K. now injection K. Qed.

Lemma matches_means k w acts typ : matches A k w acts typ <-> means k w acts typ.
Proof.
  split.
  - intros (m & e & q & r & s & M & N & L & R & S & T). rewrite Hmode in M. injection M as <-.
    destruct (Nat.lt_ge_cases k 20) as [K|K].
    + left. destruct (H20 k K) as (e' & t & q0 & r0 & s0 & N' & _ & T' & C & S0 & R0). rewrite N in N'. injection N' as <-.
      destruct (chain_ok _ _ _ _ C) as (_ & _ & U). destruct (U _ _ _ _ R S) as (-> & -> & ->). rewrite <- (stop_one _ _ _ S0 S) in T.
      rewrite R0 in T. injection T as _ <-. exists t. auto.
    + right. assert (K2 : (k < 22)%nat) by (rewrite <- Hout; apply nth_error_Some; rewrite N; discriminate).
      assert (K3 : k = 20%nat \/ k = 21%nat) by lia. destruct K3 as [-> | ->].
      * left. destruct Hid as (E & S0 & R0). rewrite E in N. injection N as <-. cbn [e_to] in R. destruct (ident_reads _ _ _ _ _ R S) as (_ & _ & I).
        destruct I as (I1 & I2 & -> & ->); [auto|]. rewrite <- (stop_one _ _ _ S0 S) in T. change (Z.to_nat 20) with 20%nat in T. rewrite R0 in T. injection T as _ <-. auto.
      * right. destruct Hws as (E & S0 & R0). rewrite E in N. injection N as <-. cbn [e_to] in R. destruct (ws_reads _ _ _ _ _ R S) as (_ & _ & I).
        destruct I as (I1 & -> & ->); [auto|]. rewrite <- (stop_one _ _ _ S0 S) in T. change (Z.to_nat 21) with 21%nat in T. rewrite R0 in T. injection T as _ <-. auto.
  - intros [(t & T & -> & -> & ->)|[(-> & W & F & -> & ->)|(-> & (c & -> & C) & -> & ->)]].
    + assert (K : (k < 20)%nat) by (rewrite <- Htexts; apply nth_error_Some; rewrite T; discriminate).
      destruct (H20 k K) as (e' & t' & q0 & r0 & s0 & N' & L' & T' & C & S0 & R0). rewrite T in T'. injection T' as <-.
      destruct (chain_ok _ _ _ _ C) as (_ & R & _). exists 0%nat, e', q0, r0, s0. rewrite Hmode. repeat (split; [assumption || reflexivity|]). assumption.
    + destruct w as [|c w]; [now elim W|]. inversion F as [|? ? C F']; subst. destruct Hid as (E & S0 & R0).
      exists 0%nat, (Edge 0 LEps 41), 42%nat, 20, 41%nat. rewrite Hmode. split; [reflexivity|]. split; [exact E|]. split; [reflexivity|].
      split; [exact (ident_loop c w F' C)|]. split; [exact S0|exact R0].
    + destruct Hws as (E & S0 & R0). exists 0%nat, (Edge 0 LEps 43), 44%nat, 21, 43%nat. rewrite Hmode. split; [reflexivity|]. split; [exact E|]. split; [reflexivity|].
      split; [exact (ws_one c C)|]. split; [exact S0|exact R0].
Qed.
End Any.

(** * The automaton of the lexer *)
Definition texts : list (list Z) := Eval vm_compute in
  flat_map (fun e => match chain lexer_atn 20 (e_to e) with Some (w, _) => [w] | None => [] end) (firstn 20 (out lexer_atn 0)).

Definition spine_b (k : nat) : bool :=
  match nth_error (out lexer_atn 0) k, nth_error texts k with
  | Some e, Some t =>
      match e_label e, chain lexer_atn 20 (e_to e) with
      | LEps, Some (t', q) =>
          if list_eq_dec Z.eq_dec t' t then
            match nth_error (at_states lexer_atn) q with
            | Some (ty, r) => (ty =? 7) && match nth_error (at_rules lexer_atn) (Z.to_nat r) with Some (_, n) => n =? Z.of_nat k + 1 | None => false end
            | None => false
            end
          else false
      | _, _ => false
      end
  | _, _ => false
  end.
Lemma spine_all : forallb spine_b (seq 0 20) = true.
Proof. vm_compute. reflexivity. Qed.
Lemma spine_ok k : spine_b k = true -> exists e t q r s, nth_error (out lexer_atn 0) k = Some e /\ e_label e = LEps
  /\ nth_error texts k = Some t /\ chain lexer_atn 20 (e_to e) = Some (t, q)
  /\ stop lexer_atn q r /\ nth_error (at_rules lexer_atn) (Z.to_nat r) = Some (s, Z.of_nat k + 1).
Proof.
  unfold spine_b, stop. generalize lexer_atn texts. intros A tx H.
  destruct (nth_error (out A 0) k) as [e|]; [|discriminate]. destruct (nth_error tx k) as [t|]; [|discriminate].
  destruct (e_label e) eqn:L; try discriminate. destruct (chain A 20 (e_to e)) as [[t' q]|] eqn:C; [|discriminate].
  destruct (list_eq_dec Z.eq_dec t' t) as [->|]; [|discriminate]. destruct (nth_error (at_states A) q) as [[ty r]|] eqn:S; [|discriminate].
  apply andb_prop in H. destruct H as [H K]. apply Z.eqb_eq in H. subst ty. destruct (nth_error (at_rules A) (Z.to_nat r)) as [[s n]|] eqn:R; [|discriminate].
  apply Z.eqb_eq in K. subst n. exists e, t, q, r, s. do 5 (split; [reflexivity || assumption|]). exact R.
Qed.
Lemma lexer_stops : forall q r, In q [41; 43; 163; 164; 165; 166; 167; 168; 169; 170; 171]%nat -> ~ stop lexer_atn q r.
Proof.
  assert (H : forallb (fun q => match nth_error (at_states lexer_atn) q with Some (t, _) => negb (t =? 7) | None => true end)
     [41; 43; 163; 164; 165; 166; 167; 168; 169; 170; 171]%nat = true) by (vm_compute; reflexivity).
  revert H. unfold stop. generalize lexer_atn. intros A H q r J S. rewrite forallb_forall in H. specialize (H q J). rewrite S in H. discriminate.
Qed.

Lemma lexer_means k w acts typ : matches lexer_atn k w acts typ <-> means texts k w acts typ.
Proof.
  assert (O41 : out lexer_atn 41 = [Edge 41 LEps 164]) by (vm_compute; reflexivity).
  assert (O42 : out lexer_atn 42 = []) by (vm_compute; reflexivity).
  assert (O43 : out lexer_atn 43 = [Edge 43 LEps 168]) by (vm_compute; reflexivity).
  assert (O44 : out lexer_atn 44 = []) by (vm_compute; reflexivity).
  assert (O163 : out lexer_atn 163 = [Edge 163 (LIn idr) 165]) by (vm_compute; reflexivity).
  assert (O164 : out lexer_atn 164 = [Edge 164 LEps 163]) by (vm_compute; reflexivity).
  assert (O165 : out lexer_atn 165 = [Edge 165 LEps 166]) by (vm_compute; reflexivity).
  assert (O166 : out lexer_atn 166 = [Edge 166 LEps 164; Edge 166 LEps 167]) by (vm_compute; reflexivity).
  assert (O167 : out lexer_atn 167 = [Edge 167 LEps 42]) by (vm_compute; reflexivity).
  assert (O168 : out lexer_atn 168 = [Edge 168 (LIn wsr) 169]) by (vm_compute; reflexivity).
  assert (O169 : out lexer_atn 169 = [Edge 169 LEps 170]) by (vm_compute; reflexivity).
  assert (O170 : out lexer_atn 170 = [Edge 170 (LAct 0) 171]) by (vm_compute; reflexivity).
  assert (O171 : out lexer_atn 171 = [Edge 171 LEps 44]) by (vm_compute; reflexivity).
  assert (Hm : at_modes lexer_atn = [0%nat]) by (vm_compute; reflexivity).
  assert (Ho : List.length (out lexer_atn 0) = 22%nat) by (vm_compute; reflexivity).
  assert (H20 := fun k (K : (k < 20)%nat) => spine_ok k (proj1 (forallb_forall spine_b (seq 0 20)) spine_all k (proj2 (in_seq 20 0 k) (conj (Nat.le_0_l k) K)))).
  assert (I1 : nth_error (out lexer_atn 0) 20 = Some (Edge 0 LEps 41)) by (vm_compute; reflexivity).
  assert (I2 : stop lexer_atn 42 20) by (vm_compute; reflexivity).
  assert (I3 : nth_error (at_rules lexer_atn) 20 = Some (41%nat, 21)) by (vm_compute; reflexivity).
  assert (W1 : nth_error (out lexer_atn 0) 21 = Some (Edge 0 LEps 43)) by (vm_compute; reflexivity).
  assert (W2 : stop lexer_atn 44 21) by (vm_compute; reflexivity).
  assert (W3 : nth_error (at_rules lexer_atn) 21 = Some (43%nat, 22)) by (vm_compute; reflexivity).
  exact (matches_means lexer_atn O41 O42 O43 O44 O163 O164 O165 O166 O167 O168 O169 O170 O171 lexer_stops texts Hm eq_refl Ho H20
           (conj I1 (conj I2 I3)) (conj W1 (conj W2 W3)) k w acts typ).
Qed.
Lemma lexer_channel : channel lexer_atn [] = 0 /\ channel lexer_atn [0%nat] = 1.
Proof. split; vm_compute; reflexivity. Qed.
