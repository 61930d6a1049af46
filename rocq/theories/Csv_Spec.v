(** Tables in comma separated form. *)
From Coq Require Import List Ascii.
Import ListNotations.

(** entries contain neither commas nor line breaks *)
Definition plain (entry : list ascii) : Prop := ~ In ","%char entry /\ ~ In "010"%char entry.
Fixpoint commas (row : list (list ascii)) : list ascii :=
  match row with [] => [] | [e] => e | e :: row => e ++ ","%char :: commas row end.
(** the text of a table, every line ended by a line break *)
Definition text (table : list (list (list ascii))) : list ascii := flat_map (fun row => commas row ++ ["010"%char]) table.
(** all lines have [cols] entries *)
Definition rectangular (cols : nat) (table : list (list (list ascii))) : Prop := Forall (fun row => length row = cols /\ Forall plain row) table.
(** [values] are the numbers of the entries *)
Definition numbers {V} (stod : list ascii -> option V) (table : list (list (list ascii))) (values : list (list V)) : Prop :=
  Forall2 (Forall2 (fun e x => stod e = Some x)) table values.
