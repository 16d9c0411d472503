(** Layout of the text of matrices and tables. *)
From Coq Require Import String Ascii List Arith.
From Verif Require Import GrammarSpec.
Import ListNotations.
Local Open Scope string_scope. Local Open Scope list_scope.

Definition newline : ascii := "010".

(** An r x c matrix whose entry (i,j) is written [w i j]: rows on lines, entries separated by a comma
    and two spaces, in one pair of brackets; all lines but the first are indented by one space. *)
Definition grid_text (r c : nat) (w : nat -> nat -> string) : string :=
  ("[" ++ String.concat (String newline " ") (map (fun i => String.concat ",  " (map (w i) (seq 0 c))) (seq 0 r)) ++ String "]" (String newline ""))%string.

(** One line per variable. *)
Definition lines_text {V} (w : V -> string) (items : list (string * V)) : string :=
  String.concat "" (map (fun p => (fst p ++ " = " ++ w (snd p) ++ String newline "")%string) items).

(** The text [s] does not contain the character [c]. *)
Definition without (c : ascii) (s : string) : Prop := all_chars (fun d => d <> c) s.
