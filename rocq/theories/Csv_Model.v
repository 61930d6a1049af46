(** Model of [read_csv], src/read_csv.cpp, on the content of the file. A file that can not be opened is not modelled.
    [std::stod] is the function [stod], which returns nothing if it throws. Column and row counts do not overflow [int].

    [begin = end + 1] at the end of a line makes an iterator beyond [line.end()]. It points behind the NUL of the string and
    is taken as harmless as long as it is not read through; reading through it ([std::find]) is undefined behaviour. *)
From Coq Require Import List Arith Ascii Bool.
Import ListNotations.

Definition LF : ascii := "010".
Definition comma : ascii := ",".

(** An input stream: the characters not yet extracted, and whether it is still good. *)
Record stream : Type := Stream { unread : list ascii; good : bool }.
Fixpoint take_line (t : list ascii) : list ascii * list ascii * bool :=
  match t with
  | [] => ([], [], false)
  | c :: t => if (c =? LF)%char then ([], t, true) else let '(l, r, found) := take_line t in (c :: l, r, found)
  end.
(** [std::getline]: the string is erased only if the stream is good (C++ standard, [string.io]); it extracts up to the
    delimiter or sets [eofbit] if it meets the end *)
Definition getline (s : stream) (line : list ascii) : stream * list ascii :=
  if good s then let '(l, r, found) := take_line (unread s) in (Stream r found, l) else (s, line).
Definition count_commas (l : list ascii) : nat := List.length (filter (fun c => (c =? comma)%char) l).

Inductive result (V : Type) : Type := Table (rows cols : nat) (data : list V) | Exception | OutOfBounds.
Arguments Table {V}. Arguments Exception {V}. Arguments OutOfBounds {V}.

Section read.
  Context {V : Type} (stod : list ascii -> option V).
  (** the number of characters before the next comma or the end *)
  Fixpoint find_comma (t : list ascii) : nat := match t with [] => O | c :: t => if (c =? comma)%char then O else S (find_comma t) end.
  (** src/read_csv.cpp:19-28; [begin] counts from [line.begin()] *)
  Fixpoint read_columns (cols : nat) (line : list ascii) (begin : nat) (data : list V) : result V + list V :=
    match cols with
    | O => inr data
    | S cols =>
        if (List.length line <? begin)%nat then inl OutOfBounds
        else
          let end_ := (begin + find_comma (skipn begin line))%nat in
          match stod (firstn (end_ - begin) (skipn begin line)) with
          | None => inl Exception
          | Some x => read_columns cols line (end_ + 1) (data ++ [x])
          end
    end.
  (** src/read_csv.cpp:16-30; nothing if the loop takes more than [fuel] passes *)
  Fixpoint read_rows (fuel cols : nat) (s : stream) (line : list ascii) (rows : nat) (data : list V) : option (result V) :=
    match line with
    | [] => Some (Table rows cols data)
    | _ =>
        match fuel with
        | O => None
        | S fuel =>
            match read_columns cols line 0 data with
            | inl r => Some r
            | inr data => let '(s, line) := getline s line in read_rows fuel cols s line (S rows) data
            end
        end
    end.
  (** src/read_csv.cpp:7-34 *)
  Definition read_csv (fuel : nat) (content : list ascii) : option (result V) :=
    let '(s, line) := getline (Stream content true) [] in
    read_rows fuel (count_commas line + 1) s line 0 [].
End read.
