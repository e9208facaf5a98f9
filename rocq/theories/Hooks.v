(** Model of the hook registry of /repo/raml.go:35-100, with Go slices and
    their shared backing arrays. No proofs here. *)
From Coq Require Import List String Bool Arith.
From Verif Require Import Base.
Import ListNotations.
Open Scope string_scope.
Open Scope list_scope.
Open Scope nat_scope.

(** A HookFunc value, /repo/raml.go:35: a code pointer, which is what
    [reflect.ValueOf(h).Pointer()] returns (/repo/raml.go:73), and the
    identity of the closure's environment. The nil func has pointer 0. *)
Record hook := Hook { h_code : nat; h_env : nat }.

(** The nil func; also what spare array elements hold. *)
Definition nil_hook : hook := Hook 0 0.

(** A slice header: backing array and length; all slices here start at
    offset 0 ([hooks[:i]] at /repo/raml.go:74 keeps the offset). *)
Record hslice := Sl { s_arr : nat; s_len : nat }.

(** The relevant state: backing arrays (length of the list = capacity) and the
    context chain, newest value first (context.WithValue, /repo/raml.go:55).
    The caller's own context is taken to hold no HookKey values. *)
Record hstate := Hs { h_arrays : list (list hook); h_ctx : list (string * hslice) }.

(** New, /repo/raml.go:137-145. *)
Definition hooks_init : hstate := Hs [] [].

(** Allocation of a backing array. *)
Definition new_array (st : hstate) (arr : list hook) : nat * hstate :=
  (List.length (h_arrays st), Hs (h_arrays st ++ [arr]) (h_ctx st)).

(** Replacement of an element of a list of arrays (a write to memory). *)
Fixpoint set_nth {A} (i : nat) (x : A) (l : list A) : list A :=
  match l, i with
  | [], _ => []
  | _ :: l', O => x :: l'
  | y :: l', S i' => y :: set_nth i' x l'
  end.

(** The elements of a slice. *)
Definition elems (st : hstate) (s : hslice) : list hook :=
  firstn (s_len s) (nth (s_arr s) (h_arrays st) []).

(** getHooks, /repo/raml.go:37-49: the newest value for the key, else a new
    empty slice. *)
Definition get_hooks (st : hstate) (key : string) : hslice * hstate :=
  match oget key (h_ctx st) with
  | Some s => (s, st)
  | None => let '(a, st) := new_array st [] in (Sl a 0, st)
  end.

(** setHooks, /repo/raml.go:51-56. *)
Definition set_hooks (st : hstate) (key : string) (s : hslice) : hstate :=
  Hs (h_arrays st) ((key, s) :: h_ctx st).

(** Go's [append(s, xs...)]: in place when the capacity allows, else a copy
    with [spare n] extra elements (the growth policy is quantified over). *)
Definition go_append (spare : nat -> nat) (st : hstate) (s : hslice) (xs : list hook) : hslice * hstate :=
  let arr := nth (s_arr s) (h_arrays st) [] in
  let n := s_len s + List.length xs in
  if n <=? List.length arr then
    (Sl (s_arr s) n,
     Hs (set_nth (s_arr s) (firstn (s_len s) arr ++ xs ++ skipn n arr) (h_arrays st)) (h_ctx st))
  else
    let '(a, st) := new_array st (firstn (s_len s) arr ++ xs ++ repeat nil_hook (spare n)) in
    (Sl a n, st).

(** AppendHook, /repo/raml.go:58-62. *)
Definition append_hook (spare : nat -> nat) (st : hstate) (key : string) (h : hook) : hstate :=
  let '(s, st) := get_hooks st key in
  let '(s, st) := go_append spare st s [h] in
  set_hooks st key s.

(** PrependHook, /repo/raml.go:64-68. *)
Definition prepend_hook (spare : nat -> nat) (st : hstate) (key : string) (h : hook) : hstate :=
  let '(s, st) := get_hooks st key in
  let old := elems st s in
  let '(a, st) := new_array st [h] in
  let '(s, st) := go_append spare st (Sl a 1) old in
  set_hooks st key s.

(** The loop of RemoveHook looking for the code pointer, /repo/raml.go:72-73. *)
Fixpoint find_code (c : nat) (l : list hook) : option nat :=
  match l with
  | [] => None
  | x :: l' => if h_code x =? c then Some 0
               else match find_code c l' with Some i => Some (S i) | None => None end
  end.

(** RemoveHook, /repo/raml.go:70-79. *)
Definition remove_hook (spare : nat -> nat) (st : hstate) (key : string) (h : hook) : hstate :=
  let '(s, st) := get_hooks st key in
  match find_code (h_code h) (elems st s) with
  | Some i =>
      let '(s, st) := go_append spare st (Sl (s_arr s) i) (skipn (S i) (elems st s)) in
      set_hooks st key s
  | None => set_hooks st key s
  end.

(** ClearHooks, /repo/raml.go:81-83. *)
Definition clear_hooks (st : hstate) (key : string) : hstate :=
  let '(a, st) := new_array st [] in set_hooks st key (Sl a 0).

(** The registry operations a client, or a running hook, can perform. *)
Inductive hop :=
| Append (key : string) (h : hook)
| Prepend (key : string) (h : hook)
| Remove (key : string) (h : hook)
| Clear (key : string).

(** Dispatch to the functions above (/repo/raml.go:58-83). *)
Definition do_op (spare : nat -> nat) (st : hstate) (o : hop) : hstate :=
  match o with
  | Append k h => append_hook spare st k h
  | Prepend k h => prepend_hook spare st k h
  | Remove k h => remove_hook spare st k h
  | Clear k => clear_hooks st k
  end.

(** A sequence of calls. *)
Definition do_ops (spare : nat -> nat) (st : hstate) (l : list hop) : hstate :=
  fold_left (do_op spare) l st.

(** What a hook does when called: registry operations, then its returned
    error ([true] for an error). Hooks that call callHooks themselves are not
    modelled. *)
Definition behaviour := hook -> list hop * bool.

(** The loop of callHooks, /repo/raml.go:90-98: [range] has fixed the slice,
    its elements are read from the backing array when reached. Result: hooks
    called in order, whether an error was returned, final state. *)
Fixpoint call_loop (spare : nat -> nat) (B : behaviour) (s : hslice) (i n : nat) (st : hstate)
    : list hook * bool * hstate :=
  match n with
  | O => ([], false, st)
  | S n' =>
      let h := nth i (nth (s_arr s) (h_arrays st) []) nil_hook in
      if h_code h =? 0 then call_loop spare B s (S i) n' st
      else
        let st := do_ops spare st (fst (B h)) in
        if snd (B h) then ([h], true, st)
        else let '(t, e, st) := call_loop spare B s (S i) n' st in (h :: t, e, st)
  end.

(** callHooks, /repo/raml.go:85-100, on a non-nil RAML. *)
Definition call_hooks (spare : nat -> nat) (B : behaviour) (st : hstate) (key : string)
    : list hook * bool * hstate :=
  let '(s, st) := get_hooks st key in
  call_loop spare B s 0 (s_len s) st.
