(** Model of [Struct_expr], src/Struct_expr.cpp. Strings are lists of characters; the interpreter is any state with the operations that
    [eval] calls. [front] and [back] of an empty string and [isspace] of a negative [char] (characters from 128 on, where [char] is
    signed) are undefined behaviour. [start = end + 1] at the end of the code makes an iterator that is only compared and is taken as
    harmless. The numbers that variables hold are of any type. *)
From Coq Require Import List Arith Ascii Bool.
From Verif Require Import Outcome.
Import ListNotations.

(** the characters that end a statement, src/Struct_expr.cpp:11-12 *)
Definition is_end (c : ascii) : bool := ((c =? ";") || (c =? "010"))%char.
(** [std::isspace] in the "C" locale *)
Definition isspace (c : ascii) : outcome bool :=
  let n := nat_of_ascii c in
  if (128 <=? n)%nat then Ub else Ok (((9 <=? n) && (n <=? 13) || (n =? 32))%nat%bool).
(** [std::find]: what is before the first character that satisfies [p], and what is from there on *)
Fixpoint find (p : ascii -> bool) (t : list ascii) : list ascii * list ascii :=
  match t with
  | [] => ([], [])
  | c :: t' => if p c then ([], t) else let '(a, b) := find p t' in (c :: a, b)
  end.
(** src/Struct_expr.cpp:17 *)
Fixpoint trim_front (s : list ascii) : outcome (list ascii) :=
  match s with
  | [] => Ub
  | c :: s' => let! sp := isspace c in if sp then trim_front s' else Ok s
  end.
(** line 18: the loop goes over the string from its end *)
Definition trim_back (s : list ascii) : outcome (list ascii) := let! r := trim_front (rev s) in Ok (rev r).
(** lines 7-23; [fuel] bounds the number of statements *)
Fixpoint get_side (fuel : nat) (rest : list ascii) (right : bool) : outcome (list (list ascii)) :=
  match rest with
  | [] => Ok []
  | _ :: _ =>
    match fuel with
    | O => NoFuel
    | S fuel =>
      let '(statement, tail) := find is_end rest in
      let '(before, after) := find (fun c => c =? "=")%char statement in
      match after with
      | [] => get_side fuel (tl tail) right
      | _ :: expr =>
        let side := if right then expr else before in
        let! side := trim_front side in
        let! side := trim_back side in
        let! sides := get_side fuel (tl tail) right in Ok (side :: sides)
      end
    end
  end.
(** lines 25-31; the message of the exception is left out *)
Definition struct_expr (code : list ascii) : outcome (list (list ascii) * list (list ascii)) :=
  let! names := get_side (length code) code false in
  let! exprs := get_side (length code) code true in
  if existsb (existsb (fun c => (c =? "$")%char)) names then Throw else Ok (names, exprs).

Section Eval.
  Context {I V : Type} (exec : list ascii -> I -> outcome I) (lookup : list ascii -> I -> option V).
  (** lines 33-43, from statement [i] on; [names] and [exprs] are the members. [exprs[i]] beyond the end is undefined behaviour. *)
  Fixpoint eval (names exprs : list (list ascii)) (inter : I) : outcome (list V * I) :=
    match names with
    | [] => Ok ([], inter)
    | name :: names =>
      match exprs with
      | [] => Ub
      | expr :: exprs =>
        let! inter := exec (name ++ ["="%char] ++ expr) inter in
        match lookup name inter with
        | None => Throw
        | Some val => let! (vals, inter) := eval names exprs inter in Ok (val :: vals, inter)
        end
      end
    end.
End Eval.
