(** What programs may do with mutual pointers, and what they may rely on. *)
From Coq Require Import List.
From Verif Require Import Outcome Mutual_Model.
Import ListNotations.

Definition alive (h : heap) (a : nat) : Prop := h a <> None.
Definition partner_of (h : heap) (a : nat) : option nat := match h a with Some c => partner c | None => None end.
Definition mine_of (h : heap) (a : nat) : option nat := match h a with Some c => mine c | None => None end.
Definition type_of (h : heap) (a : nat) : option (nat * nat) := match h a with Some c => Some (tt c, uu c) | None => None end.
Definition swap (t : option (nat * nat)) := match t with Some (t, u) => Some (u, t) | None => None end.

(** Objects are constructed where there is none, and used while they are alive; only a [Mutual_ptr<T, U>] and a
    [Mutual_ptr<U, T>] can be paired, and moving is between objects of the same type. *)
Definition legal (h : heap) (o : op) : Prop :=
  match o with
  | Construct a t u data => ~ alive h a
  | MoveConstruct a b => ~ alive h a /\ alive h b
  | MoveAssign a b => alive h a /\ alive h b /\ type_of h a = type_of h b
  | Pair a b => alive h a /\ alive h b /\ type_of h b = swap (type_of h a)
  | Unpair a | Destroy a => alive h a
  end.

(** The states a program can reach. A failed construction (exception) leaves no object. *)
Inductive reachable : heap -> Prop :=
| reach_nil : reachable (fun _ => None)
| reach_step h o h' : reachable h -> legal h o -> step h o = Ok h' -> reachable h'.
