(** Proofs about paths (C72). *)
From Coq Require Import List String Bool Ascii Lia.
From Verif Require Import Path Spec_Path.
Import ListNotations.
Open Scope string_scope.
Open Scope list_scope.

(** * Parts of a path *)

Lemma slashed_concat l : slashed l = String.concat "/" l.
Proof. induction l as [|e [|e' l] IH]; [reflexivity|reflexivity|]. cbn [slashed String.concat]. cbn [slashed String.concat] in IH. rewrite IH. reflexivity. Qed.

Lemma elements_some p : elements p <> [].
Proof. destruct p as [|c p]; cbn; [discriminate|]. destruct (Ascii.eqb c slash); [discriminate|]. destruct (elements p); discriminate. Qed.
Lemma elements_unbroken p : Forall unbroken (elements p).
Proof.
  induction p as [|c p IH]; cbn [elements]; [repeat constructor|]. destruct (Ascii.eqb_spec c slash) as [Q|N]; [constructor; [exact Logic.I|exact IH]|].
  destruct (elements p) as [|e l]; [repeat constructor; exact N|]. inversion_clear IH as [|? ? He Hl]. constructor; [|exact Hl]. split; [exact N|exact He].
Qed.
Lemma elements_concat p : String.concat "/" (elements p) = p.
Proof.
  induction p as [|c p IH]; [reflexivity|]. cbn [elements]. pose proof (elements_some p) as S. destruct (Ascii.eqb_spec c slash) as [->|N].
  - destruct (elements p) as [|e l]; [contradiction|]. cbn [String.concat]. cbn [String.concat] in IH. rewrite <- IH. reflexivity.
  - destruct (elements p) as [|e [|e' l]]; [contradiction| |]; cbn [String.concat] in *; rewrite <- IH; reflexivity.
Qed.
Lemma unbroken_elements e : unbroken e -> elements e = [e].
Proof.
  induction e as [|c e IH]; [reflexivity|]. intros [N U]. cbn [elements]. destruct (Ascii.eqb_spec c slash); [contradiction|]. now rewrite (IH U).
Qed.
Lemma elements_app a b : elements (a ++ String slash b)%string = elements a ++ elements b.
Proof.
  induction a as [|c a IH]; [reflexivity|]. cbn [elements append]. rewrite IH. destruct (Ascii.eqb c slash); [reflexivity|].
  pose proof (elements_some a). destruct (elements a); [contradiction|reflexivity].
Qed.
Lemma elements_parts l : Forall unbroken l -> l <> [] -> elements (String.concat "/" l) = l.
Proof.
  induction l as [|e l IH]; [contradiction|]. intros F _. inversion_clear F as [|? ? He Hl]. destruct l as [|e' l]; [now apply unbroken_elements|].
  cbn [String.concat]. change ("/" ++ ?x)%string with (String slash x). rewrite elements_app, (unbroken_elements _ He).
  change (elements _) with (elements (String.concat "/" (e' :: l))). now rewrite IH by (auto; discriminate).
Qed.
Lemma parts_iff v l : parts v l <-> l = elements v.
Proof.
  split.
  - intros (S & F & <-). symmetry. now apply elements_parts.
  - intros ->. split; [apply elements_some|]. split; [apply elements_unbroken|apply elements_concat].
Qed.

Lemma ok_unbroken N : place_ok N -> Forall unbroken N.
Proof. apply Forall_impl. intros n (_ & _ & _ & U). exact U. Qed.
Lemma spelling_elements N : place_ok N -> elements (spelling N) = "" :: match N with [] => [""] | _ => N end.
Proof.
  intros K. unfold spelling. change (elements ("/" ++ String.concat "/" N)) with ("" :: elements (String.concat "/" N)). f_equal. destruct N as [|n N]; [reflexivity|]. apply elements_parts; [now apply ok_unbroken|discriminate].
Qed.
Lemma spelling_inj N M : place_ok N -> place_ok M -> spelling N = spelling M -> N = M.
Proof.
  intros KN KM H. apply (f_equal elements) in H. rewrite !spelling_elements in H by assumption. injection H as H.
  destruct N as [|n N], M as [|m M]; try exact H; [reflexivity| |].
  - injection H as <- <-. inversion_clear KM as [|? ? (Q & _) _]. contradiction.
  - injection H as -> ->. inversion_clear KN as [|? ? (Q & _) _]. contradiction.
Qed.

(** * Clean *)

Lemma follow_app N l M : follow N l M -> forall l' M', follow M l' M' -> follow N (l ++ l') M'.
Proof.
  induction 1; intros l' M' H'; cbn [app]; auto.
  - apply follow_stay; auto.
  - apply follow_up; auto.
  - apply follow_top; auto.
  - apply follow_down; auto.
Qed.
Lemma clean_follow l : Forall unbroken l -> forall N, place_ok N ->
  exists M, follow N l M /\ place_ok M /\ fold_left (clean_step true) l (rev N) = rev M.
Proof.
  induction l as [|e l IH]; intros F N K; [exists N; split; [constructor|auto]|]. inversion_clear F as [|? ? He Hl]. cbn [fold_left]. unfold clean_step at 2.
  destruct (String.eqb_spec e "") as [->|N1].
  { cbn [orb]. destruct (IH Hl N K) as (M & W & R). exists M. split; [apply follow_stay; auto|exact R]. }
  destruct (String.eqb_spec e ".") as [->|N2]; cbn [orb].
  { destruct (IH Hl N K) as (M & W & R). exists M. split; [apply follow_stay; auto|exact R]. }
  destruct (String.eqb_spec e "..") as [->|N3].
  - destruct N as [|n N _] using rev_ind.
    + destruct (IH Hl [] K) as (M & W & R). exists M. split; [now apply follow_top|exact R].
    + rewrite rev_app_distr. cbn [rev app]. apply Forall_app in K. destruct K as [K Kn]. inversion_clear Kn as [|? ? (_ & _ & Q & _) _].
      apply String.eqb_neq in Q. rewrite Q. destruct (IH Hl N K) as (M & W & R). exists M. split; [now apply follow_up|exact R].
  - assert (Ke : name_ok e) by (repeat split; assumption). destruct (IH Hl (N ++ [e])) as (M & W & R); [apply Forall_app; auto|].
    rewrite rev_app_distr in R. exists M. split; [now apply follow_down|exact R].
Qed.
Lemma clean_rooted p : is_abs p = true -> exists M, follow [] (elements p) M /\ place_ok M /\ clean p = spelling M.
Proof.
  intros A. unfold clean. rewrite A. destruct (clean_follow (elements p) (elements_unbroken p) [] (Forall_nil _)) as (M & W & K & R).
  exists M. split; [exact W|]. split; [exact K|]. cbn [rev] in R. rewrite R, rev_involutive, slashed_concat. reflexivity.
Qed.
Lemma follow_det N l M : follow N l M -> forall M', follow N l M' -> M' = M.
Proof.
  induction 1 as [N|N e l M Q W IH|N n l M W IH|l M W IH|N n l M Q W IH]; intros M' W'.
  - inversion W'. reflexivity.
  - inversion W' as [|? ? ? ? _ W2|? ? ? ? W2|? ? W2|? ? ? ? (Q1 & Q2 & _) W2]; subst; try (destruct Q; discriminate); [now apply IH|]. destruct Q; contradiction.
  - inversion W' as [|? ? ? ? Q2 W2|? ? ? ? W2 QN|? ? W2 QN|? ? ? ? (_ & _ & Q2 & _) W2]; subst.
    + destruct Q2; discriminate.
    + apply app_inj_tail in QN. destruct QN as [-> _]. now apply IH.
    + destruct N; discriminate.
    + contradiction.
  - inversion W' as [|? ? ? ? Q2 W2|? ? ? ? W2 QN|? ? W2 QN|? ? ? ? (_ & _ & Q2 & _) W2]; subst.
    + destruct Q2; discriminate.
    + destruct N; discriminate.
    + now apply IH.
    + contradiction.
  - destruct Q as (Q1 & Q2 & Q3 & _). inversion W' as [|? ? ? ? Q4 W2|? ? ? ? W2 QN|? ? W2 QN|? ? ? ? _ W2]; subst; try contradiction; [destruct Q4; contradiction|].
    now apply IH.
Qed.
Lemma follow_names N M : place_ok M -> follow N M (N ++ M).
Proof.
  revert N. induction M as [|n M IH]; intros N K; [rewrite app_nil_r; constructor|]. inversion_clear K as [|? ? Kn KM]. apply follow_down; [exact Kn|].
  specialize (IH (N ++ [n]) KM). rewrite <- app_assoc in IH. exact IH.
Qed.
Lemma follow_spelling N : place_ok N -> follow [] (elements (spelling N)) N.
Proof.
  intros K. rewrite (spelling_elements N K). apply follow_stay; [now left|]. destruct N as [|n N]; [apply follow_stay; [now left|constructor]|].
  exact (follow_names [] (n :: N) K).
Qed.

(** * Join and Dir *)

Lemma abs_app a b : is_abs a = true -> is_abs (a ++ b) = true.
Proof. destruct a; [discriminate|auto]. Qed.
Lemma join_abs a v : is_abs a = true -> forall N, follow [] (elements a) N ->
  exists M, follow N (elements v) M /\ place_ok M /\ join a v = spelling M.
Proof.
  intros A N W. destruct (clean_rooted a A) as (N' & W' & K & _). apply (follow_det _ _ _ W) in W'. subst N'.
  unfold join. assert (Q : String.eqb a "" = false) by (destruct a; [discriminate|reflexivity]). rewrite Q.
  destruct (clean_rooted (a ++ String slash v)%string (abs_app _ _ A)) as (M & W2 & KM & R). rewrite elements_app in W2.
  destruct (clean_follow (elements v) (elements_unbroken v) N K) as (M' & W3 & KM' & _).
  apply (follow_det _ _ _ (follow_app _ _ _ W _ _ W3)) in W2. subst M. eauto.
Qed.
Lemma up_elements p : elements (up_to_slash p) = removelast (elements p) ++ [""].
Proof.
  induction p as [|c p IH]; [reflexivity|]. cbn [up_to_slash elements]. pose proof (elements_some p) as S. destruct (up_to_slash p) as [|d q] eqn:U.
  - cbn [elements] in IH. assert (L : exists e, elements p = [e]).
    { destruct (elements p) as [|e [|e' l]]; [contradiction|eauto|]. change (removelast (e :: e' :: l)) with (e :: removelast (e' :: l)) in IH.
      injection IH as _ IH. symmetry in IH. apply app_eq_nil in IH. destruct IH as [_ IH]. discriminate IH. }
    destruct L as [e L]. rewrite L. destruct (Ascii.eqb_spec c slash) as [->|N]; [reflexivity|]. reflexivity.
  - change (String c (String d q)) with (String c "" ++ String d q)%string. cbn [append]. remember (String d q) as r eqn:Hr. cbn [elements]. rewrite IH.
    destruct (elements p) as [|e l]; [contradiction|]. destruct (Ascii.eqb c slash); [reflexivity|]. destruct l as [|e' l]; [|reflexivity].
    exfalso. cbn in IH. rewrite Hr in IH. cbn [elements] in IH. pose proof (elements_some q). destruct (Ascii.eqb_spec d slash) as [->|N].
    + injection IH as IH. contradiction.
    + destruct (elements q); discriminate IH.
Qed.
Lemma up_abs p : is_abs p = true -> is_abs (up_to_slash p) = true.
Proof. destruct p as [|c p]; [discriminate|]. cbn [is_abs up_to_slash]. intros A. destruct (up_to_slash p); [rewrite A|]; exact A. Qed.
Lemma dir_spelling N : place_ok N -> dir (spelling N) = spelling (removelast N).
Proof.
  intros K. assert (K' : place_ok (removelast N)).
  { destruct N as [|n N _] using rev_ind; [constructor|]. rewrite removelast_last. apply Forall_app in K. exact (proj1 K). }
  unfold dir. destruct (clean_rooted (up_to_slash (spelling N))) as (M & W & _ & ->); [now apply up_abs|]. f_equal.
  rewrite up_elements, (spelling_elements N K) in W. symmetry. apply (follow_det _ _ _ W).
  destruct N as [|n N]; [repeat (apply follow_stay; [now left|]); constructor|].
  change (removelast ("" :: n :: N)) with ("" :: removelast (n :: N)). apply follow_stay; [now left|].
  apply (follow_app _ _ _ (follow_names [] _ K')). apply follow_stay; [now left|]. constructor.
Qed.
Lemma resolve_follow N v : place_ok N -> exists M, follow (removelast N) (elements v) M /\ place_ok M /\ resolve_path (spelling N) v = spelling M.
Proof.
  intros K. unfold resolve_path. rewrite (dir_spelling N K). apply join_abs; [reflexivity|]. apply follow_spelling.
  destruct N as [|n N _] using rev_ind; [constructor|]. rewrite removelast_last. apply Forall_app in K. exact (proj1 K).
Qed.
Lemma resolve_refers N v : place_ok N -> exists M, refers_to N v M /\ place_ok M /\ resolve_path (spelling N) v = spelling M.
Proof.
  intros K. destruct (resolve_follow N v K) as (M & W & R). exists M. split; [|exact R]. exists (elements v). split; [now apply parts_iff|exact W].
Qed.
Lemma refers_det N v M M' : refers_to N v M -> refers_to N v M' -> M = M'.
Proof.
  intros (l & Pl & W) (l' & Pl' & W'). apply parts_iff in Pl. apply parts_iff in Pl'. subst. symmetry. exact (follow_det _ _ _ W _ W').
Qed.
Lemma spelled_resolve q v : spelled q -> spelled (resolve_path q v).
Proof. intros (N & K & ->). destruct (resolve_refers N v K) as (M & _ & KM & ->). exists M. auto. Qed.
