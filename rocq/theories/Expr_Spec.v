(** What a structured expression is (include/Struct_expr.hpp:16-24). *)
From Coq Require Import List Ascii.
Import ListNotations.

Definition blank (c : ascii) : Prop := In c ["009"; "010"; "011"; "012"; "013"; " "]%char.
Definition plain (c : ascii) : Prop := nat_of_ascii c < 128.
Definition separator (c : ascii) : Prop := c = ";"%char \/ c = "010"%char.
(** a word begins and ends with a character that is not blank *)
Definition word (w : list ascii) : Prop := exists c d u v, w = c :: u /\ w = v ++ [d] /\ plain c /\ ~ blank c /\ plain d /\ ~ blank d.
(** An assignment with blanks around both sides, or a text that assigns nothing. *)
Inductive statement := Assign (a name b c expr d : list ascii) | Other (text : list ascii).
Definition text_of (s : statement) : list ascii :=
  match s with Assign a name b c expr d => a ++ name ++ b ++ ["="%char] ++ c ++ expr ++ d | Other text => text end.
Definition proper (s : statement) : Prop :=
  Forall (fun c => ~ separator c) (text_of s) /\
  match s with
  | Assign a name b c expr d => Forall blank a /\ Forall blank b /\ Forall blank c /\ Forall blank d /\ word name /\ word expr /\ ~ In "="%char name
  | Other text => ~ In "="%char text
  end.
(** Statements are terminated by separators; the last one need not be. *)
Definition code_of (l : list (statement * ascii)) (last : statement) : list ascii := flat_map (fun p => text_of (fst p) ++ [snd p]) l ++ text_of last.
Definition assignments (s : statement) : list (list ascii * list ascii) := match s with Assign _ name _ _ expr _ => [(name, expr)] | Other _ => [] end.
Definition all_assignments (l : list (statement * ascii)) (last : statement) : list (list ascii * list ascii) := flat_map (fun p => assignments (fst p)) l ++ assignments last.
Definition proper_code (l : list (statement * ascii)) (last : statement) : Prop := Forall (fun p => proper (fst p) /\ separator (snd p)) l /\ proper last.
