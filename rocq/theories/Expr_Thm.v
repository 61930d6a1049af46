(** Theorems: structured expressions. *)
From Coq Require Import List Arith Ascii String Bool.
From Verif Require Import Outcome Expr_Model Expr_Spec Expr_Proofs.
Import ListNotations.

(** The names and expressions are those of the assignments, in order, without the blanks around them; text without an assignment is
    skipped. A name with a [$] makes the constructor throw. *)
Theorem expr_parse : forall l last, proper_code l last ->
  ((exists p, In p (all_assignments l last) /\ In "$"%char (fst p)) -> struct_expr (code_of l last) = Throw) /\
  ((forall p, In p (all_assignments l last) -> ~ In "$"%char (fst p)) -> struct_expr (code_of l last) = Ok (map fst (all_assignments l last), map snd (all_assignments l last))).
Proof. exact parse_main. Qed.
Print Assumptions expr_parse.

(** There are as many expressions as names for every code that the constructor accepts; so [eval] does not read beyond them. *)
Theorem expr_lengths : forall code names exprs, struct_expr code = Ok (names, exprs) -> List.length names = List.length exprs.
Proof. exact parse_length. Qed.
Print Assumptions expr_lengths.

(** [eval] executes the assignments one after the other, each in the state that the one before has left, and returns the value that each
    variable has after its assignment. *)
Theorem expr_eval : forall (I V : Type) (exec : list ascii -> I -> outcome I) (lookup : list ascii -> I -> option V) code names exprs inter vals inter', struct_expr code = Ok (names, exprs) ->
  eval exec lookup names exprs inter = Ok (vals, inter') <->
  List.length vals = List.length names /\ exists state : nat -> I, state 0 = inter /\ state (List.length names) = inter' /\
    forall i name expr, nth_error names i = Some name -> nth_error exprs i = Some expr -> exec (name ++ "="%char :: expr) (state i) = Ok (state (S i)) /\ lookup name (state (S i)) = nth_error vals i.
Proof. intros I V exec lookup code names exprs inter vals inter' P. apply eval_main. exact (parse_length code names exprs P). Qed.
Print Assumptions expr_eval.
Theorem expr_eval_defined : forall (I V : Type) (exec : list ascii -> I -> outcome I) (lookup : list ascii -> I -> option V) code names exprs inter, struct_expr code = Ok (names, exprs) ->
  (forall s i, exec s i <> Ub) -> eval exec lookup names exprs inter <> Ub.
Proof. intros I V exec lookup code names exprs inter P. apply eval_no_ub. exact (parse_length code names exprs P). Qed.
Print Assumptions expr_eval_defined.

(** ** malformed code *)
(** The full claim: code that is not a structured expression is rejected with an exception. *)
Definition rejects_malformed : Prop := forall code, Forall plain code -> struct_expr code <> Ub.
(** An assignment without a right hand side reads the first character of an empty string. *)
Theorem expr_malformed_refuted : ~ rejects_malformed.
Proof. intros H. apply (H (list_ascii_of_string "x = ")). - repeat constructor. - reflexivity. Qed.
Print Assumptions expr_malformed_refuted.
(** What holds: that is the only thing that goes wrong with ASCII text. Every other code is made of proper statements. *)
Theorem expr_malformed_partial : forall code, Forall plain code -> (exists l last, proper_code l last /\ code = code_of l last) \/ struct_expr code = Ub.
Proof. exact every_main. Qed.
Print Assumptions expr_malformed_partial.

(** the expression of test/test_Struct_expr.cpp *)
Definition str := list_ascii_of_string.
Example expr_test : struct_expr (str "var0 = 2; var1 = 2 + var0" ++ ["010"; "010"]%char ++ str "var2 =" ++ ["009"%char] ++ str "${10}") = Ok ([str "var0"; str "var1"; str "var2"], [str "2"; str "2 + var0"; str "${10}"]).
Proof. reflexivity. Qed.
Example expr_macro : struct_expr (str "$macro = 0") = Throw. Proof. reflexivity. Qed.
(** A statement without an equals sign is skipped silently. *)
Example expr_skipped : struct_expr (str "x + 1; y = x") = Ok ([str "y"], [str "x"]). Proof. reflexivity. Qed.
(** a letter outside of ASCII at the edge of a side *)
Example expr_letter : struct_expr (["194"; "181"]%char ++ str " = 1") = Ub. Proof. reflexivity. Qed.
Example expr_proper : proper_code [(Assign [] (str "a") (str " ") (str " ") (str "b == c") [], ";"%char)] (Other (str " ")) /\ struct_expr (str "a = b == c; ") = Ok ([str "a"], [str "b == c"]).
Proof.
  split; [|reflexivity]. assert (NS : forall s, existsb is_end s = false -> Forall (fun c => ~ separator c) s).
  { intros s H. apply Forall_forall. intros c I S. apply is_end_spec in S. assert (E : existsb is_end s = true) by (apply existsb_exists; eauto). congruence. }
  split; [constructor; [|constructor]|].
  - split; [|left; reflexivity]. split; [apply NS; reflexivity|]. cbn [fst]. repeat (split; [repeat constructor; cbn; tauto|]).
    split; [exists "a"%char, "a"%char, [], []; repeat split; try (repeat constructor); cbn; intuition discriminate|].
    split; [exists "b"%char, "c"%char, (str " == c"), (str "b == "); repeat split; try (repeat constructor); cbn; intuition discriminate|]. cbn. intuition discriminate.
  - split; [apply NS; reflexivity|]. cbn. intuition discriminate.
Qed.
