(** What is said about locations (C72), in terms of places in a tree of
    directories. *)
From Coq Require Import List String Ascii.
From Verif Require Import Base Heap Names Yaml Pipeline Decode Parse.
Import ListNotations.
Open Scope string_scope.
Open Scope list_scope.

(** A place: the names on the way from the root to it. *)
Definition place := list string.

(** A text without separator. *)
Fixpoint unbroken (n : string) : Prop :=
  match n with EmptyString => True | String c n' => c <> "/"%char /\ unbroken n' end.

(** A name that a file or directory can have. *)
Definition name_ok (n : string) : Prop := n <> "" /\ n <> "." /\ n <> ".." /\ unbroken n.
Definition place_ok (N : place) : Prop := Forall name_ok N.

(** The one way to write a place: [/a/b/c], and [/] for the root. *)
Definition spelling (N : place) : string := ("/" ++ String.concat "/" N)%string.

(** The texts between the separators of a path. *)
Definition parts (v : string) (l : list string) : Prop := l <> [] /\ Forall unbroken l /\ String.concat "/" l = v.

(** Following a path from a directory leads to a place. *)
Inductive follow : place -> list string -> place -> Prop :=
| follow_end : forall N, follow N [] N
| follow_stay : forall N e l M, e = "" \/ e = "." -> follow N l M -> follow N (e :: l) M
| follow_up : forall N n l M, follow N l M -> follow (N ++ [n]) (".." :: l) M
| follow_top : forall l M, follow [] l M -> follow [] (".." :: l) M
| follow_down : forall N n l M, name_ok n -> follow (N ++ [n]) l M -> follow N (n :: l) M.

(** The file that [value] stands for in the file at [N]: [value] is followed from
    the directory of the file. *)
Definition refers_to (N : place) (value : string) (M : place) : Prop :=
  exists l, parts value l /\ follow (removelast N) l M.

(** A location is the spelling of a place. *)
Definition spelled (q : string) : Prop := exists N, place_ok N /\ q = spelling N.

(** All locations of a model: the keys of the cache of fragments, the locations
    of the types and those of the annotations. *)
Definition all_locations (Q : string -> Prop) (p : pst) : Prop :=
  (forall q f, oget q (p_frags p) = Some f -> Q q)
  /\ (forall a b, get_base (heap (p_st p)) a = Some b -> Q (b_loc b))
  /\ (forall e, In e (p_exts p) -> Q (e_loc e)).
