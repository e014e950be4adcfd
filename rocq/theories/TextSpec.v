(** Specification of the text files read by the imports: what it means that a text
    describes some rows of numbers. Nothing here refers to the parsing. *)
From Coq Require Import Ascii String List Arith Bool Decimal DecimalString DecimalNat.
Import ListNotations.
Open Scope nat_scope.

(** the decimal notation of a number *)
Definition written (n : nat) : string := NilEmpty.string_of_uint (Nat.to_uint n).

Definition space (c : ascii) : Prop := In (nat_of_ascii c) [9; 10; 11; 12; 13; 32].
Fixpoint all_chars (P : ascii -> Prop) (s : string) : Prop :=
  match s with EmptyString => True | String c r => P c /\ all_chars P r end.
(** a word is not empty and has no space; a blank is made of spaces *)
Definition word (s : string) : Prop := s <> EmptyString /\ all_chars (fun c => ~ space c) s.
Definition blank (s : string) : Prop := all_chars space s.
Definition one_line (s : string) : Prop := all_chars (fun c => c <> "010"%char) s.

(** a line made of the given words, separated by blanks *)
Inductive spelled : string -> list string -> Prop :=
| spelled_nil b : blank b -> spelled b []
| spelled_last b w b' : blank b -> word w -> blank b' -> spelled (b ++ w ++ b') [w]
| spelled_cons b w b' rest ws : blank b -> word w -> blank b' -> b' <> EmptyString -> spelled rest ws -> spelled (b ++ w ++ b' ++ rest) (w :: ws).

(** the text of a file with one line for each row, without a final newline *)
Definition end_of_line : string := String "010"%char EmptyString.
Definition describes (text : string) (rows : list (list string)) : Prop :=
  exists ls, text = String.concat end_of_line ls /\ ls <> [] /\ Forall2 (fun l ws => one_line l /\ spelled l ws) ls rows.
