(** The automata of the lexer and the parser of type expressions, as they are in
    the generated files /repo/rdt/rdt_lexer.go and rdt_parser.go: lists of
    numbers that the ANTLR runtime turns into states and transitions. No proofs
    here.

    The runtime (github.com/antlr4-go/antlr/v4) is not in /repo. How it reads the
    numbers ([deserialize], version 4 of the format) and what the automata mean
    ([reads], [scans], [follows]) is written down here from its documentation and
    is part of the trusted base. *)
From Coq Require Import List ZArith Bool.
Import ListNotations.
Open Scope list_scope.
Open Scope Z_scope.

(** The numbers of the lexer, /repo/rdt/rdt_lexer.go:66-139. *)
Definition lexer_numbers : list Z :=
  [
    4; 0; 22; 172; 6; (-1); 2; 0; 7; 0; 2; 1; 7; 1; 2; 2; 7; 2; 2; 3; 7; 3; 2; 4; 7; 4; 2; 5; 7;
    5; 2; 6; 7; 6; 2; 7; 7; 7; 2; 8; 7; 8; 2; 9; 7; 9; 2; 10; 7; 10; 2; 11; 7; 11; 2; 12; 7; 12;
    2; 13; 7; 13; 2; 14; 7; 14; 2; 15; 7; 15; 2; 16; 7; 16; 2; 17; 7; 17; 2; 18; 7; 18; 2; 19; 7;
    19; 2; 20; 7; 20; 2; 21; 7; 21; 1; 0; 1; 0; 1; 1; 1; 1; 1; 2; 1; 2; 1; 3; 1; 3; 1; 3; 1; 4; 1;
    4; 1; 5; 1; 5; 1; 6; 1; 6; 1; 6; 1; 6; 1; 6; 1; 6; 1; 6; 1; 7; 1; 7; 1; 7; 1; 7; 1; 7; 1; 7;
    1; 7; 1; 7; 1; 8; 1; 8; 1; 8; 1; 8; 1; 8; 1; 8; 1; 8; 1; 9; 1; 9; 1; 9; 1; 9; 1; 9; 1; 9; 1;
    9; 1; 9; 1; 10; 1; 10; 1; 10; 1; 10; 1; 10; 1; 10; 1; 10; 1; 10; 1; 10; 1; 11; 1; 11; 1; 11;
    1; 11; 1; 11; 1; 11; 1; 11; 1; 11; 1; 11; 1; 11; 1; 12; 1; 12; 1; 12; 1; 12; 1; 12; 1; 12; 1;
    12; 1; 12; 1; 12; 1; 12; 1; 12; 1; 12; 1; 12; 1; 12; 1; 13; 1; 13; 1; 13; 1; 13; 1; 13; 1; 13;
    1; 13; 1; 13; 1; 13; 1; 13; 1; 14; 1; 14; 1; 14; 1; 14; 1; 14; 1; 15; 1; 15; 1; 15; 1; 15; 1;
    16; 1; 16; 1; 16; 1; 16; 1; 17; 1; 17; 1; 17; 1; 17; 1; 17; 1; 17; 1; 18; 1; 18; 1; 18; 1; 18;
    1; 18; 1; 18; 1; 18; 1; 19; 1; 19; 1; 19; 1; 19; 1; 19; 1; 19; 1; 20; 4; 20; 165; 8; 20; 11;
    20; 12; 20; 166; 1; 21; 1; 21; 1; 21; 1; 21; 0; 0; 22; 1; 1; 3; 2; 5; 3; 7; 4; 9; 5; 11; 6;
    13; 7; 15; 8; 17; 9; 19; 10; 21; 11; 23; 12; 25; 13; 27; 14; 29; 15; 31; 16; 33; 17; 35; 18;
    37; 19; 39; 20; 41; 21; 43; 22; 1; 0; 2; 5; 0; 45; 46; 48; 57; 65; 90; 95; 95; 97; 122; 2; 0;
    9; 9; 32; 32; 172; 0; 1; 1; 0; 0; 0; 0; 3; 1; 0; 0; 0; 0; 5; 1; 0; 0; 0; 0; 7; 1; 0; 0; 0; 0;
    9; 1; 0; 0; 0; 0; 11; 1; 0; 0; 0; 0; 13; 1; 0; 0; 0; 0; 15; 1; 0; 0; 0; 0; 17; 1; 0; 0; 0; 0;
    19; 1; 0; 0; 0; 0; 21; 1; 0; 0; 0; 0; 23; 1; 0; 0; 0; 0; 25; 1; 0; 0; 0; 0; 27; 1; 0; 0; 0; 0;
    29; 1; 0; 0; 0; 0; 31; 1; 0; 0; 0; 0; 33; 1; 0; 0; 0; 0; 35; 1; 0; 0; 0; 0; 37; 1; 0; 0; 0; 0;
    39; 1; 0; 0; 0; 0; 41; 1; 0; 0; 0; 0; 43; 1; 0; 0; 0; 1; 45; 1; 0; 0; 0; 3; 47; 1; 0; 0; 0; 5;
    49; 1; 0; 0; 0; 7; 51; 1; 0; 0; 0; 9; 54; 1; 0; 0; 0; 11; 56; 1; 0; 0; 0; 13; 58; 1; 0; 0; 0;
    15; 65; 1; 0; 0; 0; 17; 73; 1; 0; 0; 0; 19; 80; 1; 0; 0; 0; 21; 88; 1; 0; 0; 0; 23; 97; 1; 0;
    0; 0; 25; 107; 1; 0; 0; 0; 27; 121; 1; 0; 0; 0; 29; 131; 1; 0; 0; 0; 31; 136; 1; 0; 0; 0; 33;
    140; 1; 0; 0; 0; 35; 144; 1; 0; 0; 0; 37; 150; 1; 0; 0; 0; 39; 157; 1; 0; 0; 0; 41; 164; 1; 0;
    0; 0; 43; 168; 1; 0; 0; 0; 45; 46; 5; 40; 0; 0; 46; 2; 1; 0; 0; 0; 47; 48; 5; 41; 0; 0; 48; 4;
    1; 0; 0; 0; 49; 50; 5; 124; 0; 0; 50; 6; 1; 0; 0; 0; 51; 52; 5; 91; 0; 0; 52; 53; 5; 93; 0; 0;
    53; 8; 1; 0; 0; 0; 54; 55; 5; 63; 0; 0; 55; 10; 1; 0; 0; 0; 56; 57; 5; 46; 0; 0; 57; 12; 1; 0;
    0; 0; 58; 59; 5; 115; 0; 0; 59; 60; 5; 116; 0; 0; 60; 61; 5; 114; 0; 0; 61; 62; 5; 105; 0; 0;
    62; 63; 5; 110; 0; 0; 63; 64; 5; 103; 0; 0; 64; 14; 1; 0; 0; 0; 65; 66; 5; 105; 0; 0; 66; 67;
    5; 110; 0; 0; 67; 68; 5; 116; 0; 0; 68; 69; 5; 101; 0; 0; 69; 70; 5; 103; 0; 0; 70; 71; 5;
    101; 0; 0; 71; 72; 5; 114; 0; 0; 72; 16; 1; 0; 0; 0; 73; 74; 5; 110; 0; 0; 74; 75; 5; 117; 0;
    0; 75; 76; 5; 109; 0; 0; 76; 77; 5; 98; 0; 0; 77; 78; 5; 101; 0; 0; 78; 79; 5; 114; 0; 0; 79;
    18; 1; 0; 0; 0; 80; 81; 5; 98; 0; 0; 81; 82; 5; 111; 0; 0; 82; 83; 5; 111; 0; 0; 83; 84; 5;
    108; 0; 0; 84; 85; 5; 101; 0; 0; 85; 86; 5; 97; 0; 0; 86; 87; 5; 110; 0; 0; 87; 20; 1; 0; 0;
    0; 88; 89; 5; 100; 0; 0; 89; 90; 5; 97; 0; 0; 90; 91; 5; 116; 0; 0; 91; 92; 5; 101; 0; 0; 92;
    93; 5; 116; 0; 0; 93; 94; 5; 105; 0; 0; 94; 95; 5; 109; 0; 0; 95; 96; 5; 101; 0; 0; 96; 22; 1;
    0; 0; 0; 97; 98; 5; 116; 0; 0; 98; 99; 5; 105; 0; 0; 99; 100; 5; 109; 0; 0; 100; 101; 5; 101;
    0; 0; 101; 102; 5; 45; 0; 0; 102; 103; 5; 111; 0; 0; 103; 104; 5; 110; 0; 0; 104; 105; 5; 108;
    0; 0; 105; 106; 5; 121; 0; 0; 106; 24; 1; 0; 0; 0; 107; 108; 5; 100; 0; 0; 108; 109; 5; 97; 0;
    0; 109; 110; 5; 116; 0; 0; 110; 111; 5; 101; 0; 0; 111; 112; 5; 116; 0; 0; 112; 113; 5; 105;
    0; 0; 113; 114; 5; 109; 0; 0; 114; 115; 5; 101; 0; 0; 115; 116; 5; 45; 0; 0; 116; 117; 5; 111;
    0; 0; 117; 118; 5; 110; 0; 0; 118; 119; 5; 108; 0; 0; 119; 120; 5; 121; 0; 0; 120; 26; 1; 0;
    0; 0; 121; 122; 5; 100; 0; 0; 122; 123; 5; 97; 0; 0; 123; 124; 5; 116; 0; 0; 124; 125; 5; 101;
    0; 0; 125; 126; 5; 45; 0; 0; 126; 127; 5; 111; 0; 0; 127; 128; 5; 110; 0; 0; 128; 129; 5; 108;
    0; 0; 129; 130; 5; 121; 0; 0; 130; 28; 1; 0; 0; 0; 131; 132; 5; 102; 0; 0; 132; 133; 5; 105;
    0; 0; 133; 134; 5; 108; 0; 0; 134; 135; 5; 101; 0; 0; 135; 30; 1; 0; 0; 0; 136; 137; 5; 110;
    0; 0; 137; 138; 5; 105; 0; 0; 138; 139; 5; 108; 0; 0; 139; 32; 1; 0; 0; 0; 140; 141; 5; 97; 0;
    0; 141; 142; 5; 110; 0; 0; 142; 143; 5; 121; 0; 0; 143; 34; 1; 0; 0; 0; 144; 145; 5; 97; 0; 0;
    145; 146; 5; 114; 0; 0; 146; 147; 5; 114; 0; 0; 147; 148; 5; 97; 0; 0; 148; 149; 5; 121; 0; 0;
    149; 36; 1; 0; 0; 0; 150; 151; 5; 111; 0; 0; 151; 152; 5; 98; 0; 0; 152; 153; 5; 106; 0; 0;
    153; 154; 5; 101; 0; 0; 154; 155; 5; 99; 0; 0; 155; 156; 5; 116; 0; 0; 156; 38; 1; 0; 0; 0;
    157; 158; 5; 117; 0; 0; 158; 159; 5; 110; 0; 0; 159; 160; 5; 105; 0; 0; 160; 161; 5; 111; 0;
    0; 161; 162; 5; 110; 0; 0; 162; 40; 1; 0; 0; 0; 163; 165; 7; 0; 0; 0; 164; 163; 1; 0; 0; 0;
    165; 166; 1; 0; 0; 0; 166; 164; 1; 0; 0; 0; 166; 167; 1; 0; 0; 0; 167; 42; 1; 0; 0; 0; 168;
    169; 7; 1; 0; 0; 169; 170; 1; 0; 0; 0; 170; 171; 6; 21; 0; 0; 171; 44; 1; 0; 0; 0; 3; 0; 164;
    166; 1; 0; 1; 0
  ].

(** The numbers of the parser, /repo/rdt/rdt_parser.go:52-92. *)
Definition parser_numbers : list Z :=
  [
    4; 1; 22; 95; 2; 0; 7; 0; 2; 1; 7; 1; 2; 2; 7; 2; 2; 3; 7; 3; 2; 4; 7; 4; 2; 5; 7; 5; 2; 6; 7;
    6; 2; 7; 7; 7; 2; 8; 7; 8; 1; 0; 1; 0; 1; 0; 1; 1; 1; 1; 3; 1; 24; 8; 1; 1; 2; 1; 2; 1; 2; 1;
    2; 1; 2; 3; 2; 31; 8; 2; 1; 3; 1; 3; 1; 4; 1; 4; 1; 4; 3; 4; 38; 8; 4; 1; 4; 1; 4; 1; 5; 1; 5;
    1; 5; 3; 5; 45; 8; 5; 1; 5; 1; 5; 1; 6; 1; 6; 5; 6; 51; 8; 6; 10; 6; 12; 6; 54; 9; 6; 1; 6; 1;
    6; 5; 6; 58; 8; 6; 10; 6; 12; 6; 61; 9; 6; 1; 6; 1; 6; 5; 6; 65; 8; 6; 10; 6; 12; 6; 68; 9; 6;
    4; 6; 70; 8; 6; 11; 6; 12; 6; 71; 1; 7; 1; 7; 5; 7; 76; 8; 7; 10; 7; 12; 7; 79; 9; 7; 1; 7; 1;
    7; 5; 7; 83; 8; 7; 10; 7; 12; 7; 86; 9; 7; 1; 7; 1; 7; 1; 8; 1; 8; 1; 8; 3; 8; 93; 8; 8; 1; 8;
    0; 0; 9; 0; 2; 4; 6; 8; 10; 12; 14; 16; 0; 1; 1; 0; 7; 20; 101; 0; 18; 1; 0; 0; 0; 2; 23; 1;
    0; 0; 0; 4; 30; 1; 0; 0; 0; 6; 32; 1; 0; 0; 0; 8; 37; 1; 0; 0; 0; 10; 44; 1; 0; 0; 0; 12; 48;
    1; 0; 0; 0; 14; 73; 1; 0; 0; 0; 16; 89; 1; 0; 0; 0; 18; 19; 3; 2; 1; 0; 19; 20; 5; 0; 0; 1;
    20; 1; 1; 0; 0; 0; 21; 24; 3; 4; 2; 0; 22; 24; 3; 12; 6; 0; 23; 21; 1; 0; 0; 0; 23; 22; 1; 0;
    0; 0; 24; 3; 1; 0; 0; 0; 25; 31; 3; 6; 3; 0; 26; 31; 3; 14; 7; 0; 27; 31; 3; 16; 8; 0; 28; 31;
    3; 10; 5; 0; 29; 31; 3; 8; 4; 0; 30; 25; 1; 0; 0; 0; 30; 26; 1; 0; 0; 0; 30; 27; 1; 0; 0; 0;
    30; 28; 1; 0; 0; 0; 30; 29; 1; 0; 0; 0; 31; 5; 1; 0; 0; 0; 32; 33; 7; 0; 0; 0; 33; 7; 1; 0; 0;
    0; 34; 38; 3; 6; 3; 0; 35; 38; 3; 14; 7; 0; 36; 38; 3; 16; 8; 0; 37; 34; 1; 0; 0; 0; 37; 35;
    1; 0; 0; 0; 37; 36; 1; 0; 0; 0; 38; 39; 1; 0; 0; 0; 39; 40; 5; 5; 0; 0; 40; 9; 1; 0; 0; 0; 41;
    45; 3; 6; 3; 0; 42; 45; 3; 14; 7; 0; 43; 45; 3; 16; 8; 0; 44; 41; 1; 0; 0; 0; 44; 42; 1; 0; 0;
    0; 44; 43; 1; 0; 0; 0; 45; 46; 1; 0; 0; 0; 46; 47; 5; 4; 0; 0; 47; 11; 1; 0; 0; 0; 48; 52; 3;
    4; 2; 0; 49; 51; 5; 22; 0; 0; 50; 49; 1; 0; 0; 0; 51; 54; 1; 0; 0; 0; 52; 50; 1; 0; 0; 0; 52;
    53; 1; 0; 0; 0; 53; 69; 1; 0; 0; 0; 54; 52; 1; 0; 0; 0; 55; 59; 5; 3; 0; 0; 56; 58; 5; 22; 0;
    0; 57; 56; 1; 0; 0; 0; 58; 61; 1; 0; 0; 0; 59; 57; 1; 0; 0; 0; 59; 60; 1; 0; 0; 0; 60; 62; 1;
    0; 0; 0; 61; 59; 1; 0; 0; 0; 62; 66; 3; 4; 2; 0; 63; 65; 5; 22; 0; 0; 64; 63; 1; 0; 0; 0; 65;
    68; 1; 0; 0; 0; 66; 64; 1; 0; 0; 0; 66; 67; 1; 0; 0; 0; 67; 70; 1; 0; 0; 0; 68; 66; 1; 0; 0;
    0; 69; 55; 1; 0; 0; 0; 70; 71; 1; 0; 0; 0; 71; 69; 1; 0; 0; 0; 71; 72; 1; 0; 0; 0; 72; 13; 1;
    0; 0; 0; 73; 77; 5; 1; 0; 0; 74; 76; 5; 22; 0; 0; 75; 74; 1; 0; 0; 0; 76; 79; 1; 0; 0; 0; 77;
    75; 1; 0; 0; 0; 77; 78; 1; 0; 0; 0; 78; 80; 1; 0; 0; 0; 79; 77; 1; 0; 0; 0; 80; 84; 3; 2; 1;
    0; 81; 83; 5; 22; 0; 0; 82; 81; 1; 0; 0; 0; 83; 86; 1; 0; 0; 0; 84; 82; 1; 0; 0; 0; 84; 85; 1;
    0; 0; 0; 85; 87; 1; 0; 0; 0; 86; 84; 1; 0; 0; 0; 87; 88; 5; 2; 0; 0; 88; 15; 1; 0; 0; 0; 89;
    92; 5; 21; 0; 0; 90; 91; 5; 6; 0; 0; 91; 93; 5; 21; 0; 0; 92; 90; 1; 0; 0; 0; 92; 93; 1; 0; 0;
    0; 93; 17; 1; 0; 0; 0; 11; 23; 30; 37; 44; 52; 59; 66; 71; 77; 84; 92
  ].

(** * Reading the numbers *)

(** What a transition needs: nothing, one symbol in one of the ranges (characters
    for the lexer, token types for the parser, -1 is the end of the input), the
    action of a lexer rule, or a whole rule that starts in the given state. Read
    by the call at /repo/rdt/rdt_lexer.go:141, /repo/rdt/rdt_parser.go:95. *)
Inductive label : Type :=
| LEps
| LIn (l : list (Z * Z))
| LAct (i : nat)
| LCall (start : nat).

(** A transition (same lines); the target of a call is where it goes on after the
    rule. *)
Record edge := Edge { e_from : nat; e_label : label; e_to : nat }.

(** An automaton (same lines): for each state its type and its rule, for each rule
    its first state and (in a lexer) its token type, the start states of the
    modes, the transitions in the order of the file, the states with decisions,
    and the lexer actions. *)
Record atn := Atn {
  at_states : list (Z * Z);
  at_rules : list (nat * Z);
  at_modes : list nat;
  at_edges : list edge;
  at_decisions : list nat;
  at_actions : list (Z * Z * Z)
}.

(** A reader of numbers (same lines). *)
Definition rdr (A : Type) : Type := list Z -> option (A * list Z).
Definition rret {A} (a : A) : rdr A := fun l => Some (a, l).
Definition rbind {A B} (m : rdr A) (f : A -> rdr B) : rdr B :=
  fun l => match m l with Some (a, r) => f a r | None => None end.
Definition rfail {A} : rdr A := fun _ => None.
Declare Scope rdr_scope.
Delimit Scope rdr_scope with rdr.
Local Notation "x <- m ;; f" := (rbind m (fun x => f)) (at level 61, m at next level, right associativity) : rdr_scope.
Local Open Scope rdr_scope.

(** The next number (same lines). *)
Definition num : rdr Z := fun l => match l with x :: r => Some (x, r) | [] => None end.
(** The next number as the number of a state or an index (same lines). *)
Definition idx : rdr nat := x <- num ;; if x <? 0 then rfail else rret (Z.to_nat x).
(** [n] items (same lines). *)
Fixpoint items {A} (n : nat) (m : rdr A) : rdr (list A) :=
  match n with
  | O => rret []
  | S n' => x <- m ;; l <- items n' m ;; rret (x :: l)
  end.
(** A number of items and the items (same lines). *)
Definition counted {A} (m : rdr A) : rdr (list A) := n <- idx ;; items n m.

(** A state: its type, its rule, and for a loop end (12) the state that loops and
    for the start of a block (3, 4, 5) its end, which say nothing about the
    language (same lines). *)
Definition state_of : rdr (Z * Z) :=
  t <- num ;; r <- num ;;
  if (t =? 12) || (t =? 3) || (t =? 4) || (t =? 5) then _ <- idx ;; rret (t, r) else rret (t, r).

(** A set of symbols: the number of intervals, whether the end of the input is in
    it, the intervals (same lines). *)
Definition set_of : rdr (list (Z * Z)) :=
  n <- idx ;; eof <- num ;;
  l <- items n (a <- num ;; b <- num ;; rret (a, b)) ;;
  rret (if eof =? 0 then l else (-1, -1) :: l).

(** A transition: 1 without a symbol, 2 a range, 3 a rule, 5 one symbol, 6 a lexer
    action, 7 a set. Predicates (4), complements of sets (8), wildcards (9) and
    precedence predicates (10) do not occur and are refused (same lines). *)
Definition edge_of (sets : list (list (Z * Z))) : rdr edge :=
  s <- idx ;; t <- idx ;; k <- num ;; a <- num ;; b <- num ;; c <- num ;;
  if k =? 1 then rret (Edge s LEps t)
  else if k =? 2 then rret (Edge s (LIn [((if c =? 0 then a else -1), b)]) t)
  else if k =? 3 then rret (Edge s (LCall (Z.to_nat a)) t)
  else if k =? 5 then rret (Edge s (LIn [(if c =? 0 then (a, a) else (-1, -1))]) t)
  else if k =? 6 then rret (Edge s (LAct (Z.to_nat b)) t)
  else if k =? 7 then
    match nth_error sets (Z.to_nat a) with Some l => rret (Edge s (LIn l) t) | None => rfail end
  else rfail.

(** A lexer action: only 0, the choice of a channel, occurs; others are refused
    (same lines). *)
Definition action_of : rdr (Z * Z * Z) :=
  a <- num ;; b <- num ;; c <- num ;; if a =? 0 then rret (a, b, c) else rfail.

(** The whole automaton: version, kind (0 lexer, 1 parser), greatest token type,
    states, non-greedy states and precedence states (there must be none), rules,
    modes, sets, transitions, decisions, lexer actions (same lines). *)
Definition deserialize_from (lexer : bool) : rdr atn :=
  v <- num ;; k <- num ;; _ <- num ;;
  if negb (v =? 4) || negb (k =? (if lexer then 0 else 1)) then rfail
  else
    states <- counted state_of ;;
    nongreedy <- counted num ;;
    precedence <- counted num ;;
    match nongreedy, precedence with
    | [], [] =>
        rules <- counted (s <- idx ;; (if lexer then t <- num ;; rret (s, t) else rret (s, 0))) ;;
        modes <- counted idx ;;
        sets <- counted set_of ;;
        edges <- counted (edge_of sets) ;;
        decisions <- counted idx ;;
        actions <- (if lexer then counted action_of else rret []) ;;
        rret (Atn states rules modes edges decisions actions)
    | _, _ => rfail
    end.

(** All numbers must be used (same lines). *)
Definition deserialize (lexer : bool) (l : list Z) : option atn :=
  match deserialize_from lexer l with Some (A, []) => Some A | _ => None end.

(** The automaton of the lexer, /repo/rdt/rdt_lexer.go:140-142. *)
Definition lexer_atn : atn :=
  match deserialize true lexer_numbers with Some A => A | None => Atn [] [] [] [] [] [] end.
(** The automaton of the parser, /repo/rdt/rdt_parser.go:93-95. *)
Definition parser_atn : atn :=
  match deserialize false parser_numbers with Some A => A | None => Atn [] [] [] [] [] [] end.

(** * What the automata mean *)

Section Meaning.
Variable A : atn.

(** The transitions of a state, in order (antlr ATNState.GetTransitions, used
    through the Interpreter of /repo/rdt/rdt_lexer.go:165). *)
Definition out (q : nat) : list edge := filter (fun e => Nat.eqb (e_from e) q) (at_edges A).

(** The stop state of a rule (type 7, same line). *)
Definition stop (q : nat) (r : Z) : Prop := nth_error (at_states A) q = Some (7, r).

(** A symbol is in one of the ranges (same line). *)
Definition in_ranges (c : Z) (l : list (Z * Z)) : Prop := exists a b, In (a, b) l /\ a <= c <= b.

(** From one state the automaton comes to another by reading these characters
    and passing these actions; lexer rules do not call each other here (same
    line). *)
Inductive reads : nat -> list Z -> list nat -> nat -> Prop :=
| rd_here q : reads q [] [] q
| rd_eps q t w acts q' : In (Edge q LEps t) (out q) -> reads t w acts q' -> reads q w acts q'
| rd_in q l t c w acts q' : In (Edge q (LIn l) t) (out q) -> in_ranges c l -> reads t w acts q' ->
    reads q (c :: w) acts q'
| rd_act q i t w acts q' : In (Edge q (LAct i) t) (out q) -> reads t w acts q' -> reads q w (i :: acts) q'.

(** The [k]-th alternative of the start state of the first mode matches the text
    [w], passes the actions and makes a token of this type (LexerATNSimulator,
    same line). *)
Definition matches (k : nat) (w : list Z) (acts : list nat) (typ : Z) : Prop :=
  exists m e q r s, nth_error (at_modes A) 0 = Some m /\ nth_error (out m) k = Some e /\ e_label e = LEps
    /\ reads (e_to e) w acts q /\ stop q r /\ nth_error (at_rules A) (Z.to_nat r) = Some (s, typ).

(** The channel of a token: that of the last action, or the default channel 0
    (LexerChannelAction, same line). *)
Definition channel (acts : list nat) : Z :=
  fold_left (fun c i => match nth_error (at_actions A) i with Some (_, c', _) => c' | None => c end) acts 0.

(** The tokens of a text, as type and text, of the default channel
    (/repo/resolve.go:181): the longest match, the first alternative on a tie, until the
    input is used up, without an error. *)
Inductive scans : list Z -> list (Z * list Z) -> Prop :=
| sc_end : scans [] []
| sc_tok k w acts typ s l :
    w <> [] -> matches k w acts typ ->
    (forall k' w' acts' typ' s', (w' ++ s')%list = (w ++ s)%list -> matches k' w' acts' typ' -> (List.length w' <= List.length w)%nat) ->
    (forall k' acts' typ', matches k' w acts' typ' -> (k <= k')%nat) ->
    scans s l ->
    scans (w ++ s)%list (if channel acts =? 0 then (typ, w) :: l else l).

(** The parser automaton accepts the token types [ts] from a state, with the
    states to go on in after the rules that are being read (ParserATNSimulator,
    the Interpreter of /repo/rdt/rdt_parser.go:119). *)
Inductive follows : nat -> list nat -> list Z -> Prop :=
| fo_end q r : stop q r -> follows q [] []
| fo_eps q t st ts : In (Edge q LEps t) (out q) -> follows t st ts -> follows q st ts
| fo_in q l t st c ts : In (Edge q (LIn l) t) (out q) -> in_ranges c l -> follows t st ts -> follows q st (c :: ts)
| fo_call q i t st ts : In (Edge q (LCall i) t) (out q) -> follows i (t :: st) ts -> follows q st ts
| fo_ret q r t st ts : stop q r -> follows t st ts -> follows q (t :: st) ts.
End Meaning.
