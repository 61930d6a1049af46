(** What a stopwatch should show after a history of calls, read backwards (latest call first). *)
From Coq Require Import ZArith QArith List.
From Verif Require Import Stopwatch_Model.
Import ListNotations.

(** It is running if the latest start or pause is a start. *)
Fixpoint is_running (past : list sw_op) : bool :=
  match past with
  | [] => false
  | Start _ :: _ => true
  | Pause _ :: _ => false
  | Reset :: past' => is_running past'
  end.

(** When the running interval was opened: the earliest start after the latest pause (later starts are rejected). *)
Fixpoint opened (past : list sw_op) : Z :=
  match past with
  | [] => 0
  | Start now :: past' => if is_running past' then opened past' else now
  | Pause _ :: past' => 0
  | Reset :: past' => opened past'
  end.

(** The completed intervals (opening and closing time) closed after the latest reset. *)
Fixpoint completed (past : list sw_op) : list (Z * Z) :=
  match past with
  | [] => []
  | Start _ :: past' => completed past'
  | Pause now :: past' => if is_running past' then (opened past', now) :: completed past' else completed past'
  | Reset :: _ => []
  end.

(** Total duration in nanoseconds. *)
Definition total (l : list (Z * Z)) : Z := fold_right (fun ab acc => (snd ab - fst ab + acc)%Z) 0%Z l.
