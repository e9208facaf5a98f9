(** Specification of the hook registry (C39, C40): plain lists. *)
From Coq Require Import List String Bool Arith.
From Verif Require Import Base Hooks.
Import ListNotations.
Open Scope list_scope.

(** Removal of the first hook with the given code pointer. *)
Fixpoint remove_first (c : nat) (l : list hook) : list hook :=
  match l with
  | [] => []
  | x :: l' => if Nat.eqb (h_code x) c then l' else x :: remove_first c l'
  end.

(** The hooks registered under [key] after a history of operations, starting
    from none. *)
Definition step_list (key : string) (l : list hook) (o : hop) : list hook :=
  match o with
  | Append k h => if String.eqb k key then l ++ [h] else l
  | Prepend k h => if String.eqb k key then h :: l else l
  | Remove k h => if String.eqb k key then remove_first (h_code h) l else l
  | Clear k => if String.eqb k key then [] else l
  end.
Definition registered (key : string) (ops : list hop) : list hook := fold_left (step_list key) ops [].

(** [runs B l t e]: calling the hooks of [l] in order calls exactly [t]
    (nil hooks are skipped) and returns an error iff [e]. *)
Inductive runs (B : behaviour) : list hook -> list hook -> bool -> Prop :=
| runs_nil : runs B [] [] false
| runs_skip : forall h l t e, h_code h = 0 -> runs B l t e -> runs B (h :: l) t e
| runs_error : forall h l, h_code h <> 0 -> snd (B h) = true -> runs B (h :: l) [h] true
| runs_next : forall h l t e, h_code h <> 0 -> snd (B h) = false -> runs B l t e ->
    runs B (h :: l) (h :: t) e.

Definition is_remove (o : hop) : Prop := match o with Remove _ _ => True | _ => False end.

(** Hooks that never remove hooks while running. *)
Definition never_removes (B : behaviour) : Prop := forall h o, In o (fst (B h)) -> ~ is_remove o.

(** Hooks that leave the registry alone. *)
Definition passive (B : behaviour) : Prop := forall h, fst (B h) = [].
