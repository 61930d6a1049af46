(** Model of [Iteration_status]: include/Iteration_status.hpp:21-70, src/Iteration_status.cpp:6-43.

    Simplifications:
    - strings are lists of characters; the numbers are given as the texts that [printf] makes of them without a width ([%i], [%.8e]);
    - [%<width>...] fills up with blanks on the left; [snprintf] keeps at most [buf_size - 1] characters;
    - [pop_back] of an empty string is undefined behaviour. *)
From Coq Require Import List Arith Ascii String.
From Verif Require Import Outcome Loop.
Import ListNotations.
Local Open Scope list_scope.

Notation text := (list ascii).
Definition blank : ascii := " "%char.
(** include/Iteration_status.hpp:38-45: the members that can be overridden *)
Record layout := { sep : text; number_width : nat; labels : list text }.
(** src/Iteration_status.cpp:6-11 *)
Definition width (l : layout) : nat := fold_left (fun w label => Nat.max w (List.length label)) (labels l) (number_width l).
(** include/Iteration_status.hpp:24-33, [buf_size] is 100 *)
Definition printed (w : nat) (value : text) : text := repeat blank (w - List.length value) ++ value.
Definition format (l : layout) (value : text) : text := firstn 99 (printed (width l) value) ++ sep l.
Definition pop_back (s : text) : outcome text := match s with [] => Ub | _ => Ok (removelast s) end.
(** src/Iteration_status.cpp:34, 41 *)
Definition delete_separator (l : layout) (s : text) : outcome text := ofold (fun _ s => pop_back s) (seq 0 (List.length (sep l))) s.
(** lines 13-26; [values] are the columns *)
Definition value_string (l : layout) (values : list text) : text := fold_left (fun r value => r ++ format l value) values [].
(** include/Iteration_status.hpp:38-44: what the members are if nothing overrides them *)
Definition chars (s : string) : text := list_ascii_of_string s.
Definition default : layout := {| sep := chars ", "; number_width := 15;
  labels := map chars ["iteration"; "momtm resid"; "mass resid"; "energy resid"; "av adv resid"; "av diff resid"; "flow time"; "time step"; "fix adm iters"]%string |}.
(** include/Iteration_status.hpp:52-60, as texts *)
Record status := { flow_time : text; mmtm_res : text; mass_res : text; ener_res : text; adv_res : text; diff_res : text; time_step : text; iteration : text; fix_admis_iters : text }.
(** src/Iteration_status.cpp:16-24 *)
Definition columns (s : status) : list text := [iteration s; mmtm_res s; mass_res s; ener_res s; adv_res s; diff_res s; flow_time s; time_step s; fix_admis_iters s].
(** lines 28-36 *)
Definition header (l : layout) : outcome text := delete_separator l (fold_left (fun h label => h ++ format l label) (labels l) []).
(** lines 38-43 *)
Definition report (l : layout) (values : list text) : outcome text := delete_separator l (value_string l values).
