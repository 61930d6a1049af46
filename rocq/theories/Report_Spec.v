(** Tables of texts. *)
From Coq Require Import List Arith Ascii.
From Verif Require Import Report_Model.
Import ListNotations.

(** the cells with the separator between them *)
Fixpoint join (sep : text) (cells : list text) : text :=
  match cells with
  | [] => []
  | [c] => c
  | c :: cells => c ++ sep ++ join sep cells
  end.
(** [c] is [value], justified to the right in [w] characters *)
Definition justified (w : nat) (value c : text) : Prop := length c = w /\ exists n, c = repeat blank n ++ value.
(** the characters from [start] on, [n] of them *)
Definition slice (start n : nat) (s : text) : text := firstn n (skipn start s).
